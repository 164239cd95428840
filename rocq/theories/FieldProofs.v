(** Facts about the direct fields. *)
From Coq Require Import Reals List Arith Bool Lra Lia Permutation.
From Coquelicot Require Import Coquelicot.
From Verif Require Import Num Outcome Vec VecProofs Tables CAux TableProofs Schedule Fields FieldSpec.
Import ListNotations.
Local Open Scope R_scope.

(** ** Norm and distance *)
Lemma fold_left_plus_list (l : list R) z : fold_left Rplus l z = z + rsum (fun x => x) l.
Proof. revert z; induction l as [|a l IH]; intros z; simpl; [lra|]. rewrite IH. lra. Qed.
Lemma rsum_list_seq (f : R -> R) (l : list R) : rsum f l = rsum (fun k => f (nth k l 0)) (seq 0 (length l)).
Proof.
  induction l as [|a l IH]; [reflexivity|]. cbn [length seq]. rewrite !rsum_cons. cbn [nth].
  rewrite IH, rsum_seq_shift. reflexivity.
Qed.
Lemma rsum_map2 (f : R -> R -> R) (a b : list R) : length a = length b ->
  rsum (fun x => x) (map2 f a b) = rsum (fun k => f (nth k a 0) (nth k b 0)) (seq 0 (length a)).
Proof.
  revert b; induction a as [|x a IH]; intros [|y b] H; simpl in H; try discriminate; [reflexivity|].
  cbn [length seq map2]. change (map2 f (x :: a) (y :: b)) with (f x y :: map2 f a b).
  rewrite !rsum_cons. cbn [nth]. rewrite IH by congruence. rewrite rsum_seq_shift. reflexivity.
Qed.
Lemma vnorm_sq_spec (v : list R) : vnorm_sq v = rsum (fun k => (nth k v 0) ^ 2) (seq 0 (length v)).
Proof.
  unfold vnorm_sq, vdot. change (@nadd R _) with Rplus. change (@nmul R _) with Rmult. change (@n0 R _) with 0.
  rewrite fold_left_plus_list, rsum_map2 by reflexivity. rewrite Rplus_0_l. apply rsum_ext. intros; simpl; ring.
Qed.
Definition sqdist (a b : list R) : R := rsum (fun k => (nth k a 0 - nth k b 0) ^ 2) (seq 0 (length a)).
Lemma vnorm_sq_vsub (a b : list R) : length a = length b -> vnorm_sq (vsub a b) = sqdist a b.
Proof.
  intros H. rewrite vnorm_sq_spec, len_vsub. replace (Nat.min (length a) (length b)) with (length a) by lia.
  apply rsum_ext. intros k Hk. apply in_seq in Hk. rewrite nth_vsub by lia. reflexivity.
Qed.
Lemma vnorm_vsub (a b : list R) : length a = length b -> vnorm (vsub a b) = dist a b.
Proof. intros H. unfold vnorm. rewrite vnorm_sq_vsub by exact H. reflexivity. Qed.
Lemma sqdist_nonneg a b : 0 <= sqdist a b.
Proof. apply rsum_nonneg. intros; apply pow2_ge_0. Qed.
Lemma dist_nonneg a b : 0 <= dist a b.
Proof. apply sqrt_pos. Qed.
Lemma dist_sq a b : dist a b * dist a b = sqdist a b.
Proof. apply sqrt_sqrt. apply sqdist_nonneg. Qed.
Lemma sqdist_sym a b : length a = length b -> sqdist a b = sqdist b a.
Proof. intros H. unfold sqdist. rewrite H. apply rsum_ext. intros; ring. Qed.
Lemma dist_sym a b : length a = length b -> dist a b = dist b a.
Proof. intros H. unfold dist. fold (sqdist a b) (sqdist b a). rewrite sqdist_sym by exact H. reflexivity. Qed.
Lemma rsum_zero_inv {A} (f : A -> R) l : (forall a, In a l -> 0 <= f a) -> rsum f l = 0 -> forall a, In a l -> f a = 0.
Proof.
  induction l as [|x l IH]; intros Hp H a Ha; [destruct Ha|].
  rewrite rsum_cons in H. assert (0 <= f x) by (apply Hp; left; reflexivity).
  assert (0 <= rsum f l) by (apply rsum_nonneg; intros; apply Hp; right; assumption).
  destruct Ha as [->|Ha]; [lra|]. apply IH; [intros; apply Hp; right; assumption|lra|exact Ha].
Qed.
Lemma sqdist_zero a b : length a = length b -> sqdist a b = 0 -> a = b.
Proof.
  intros H E. apply (vec_ext a b (length a)); [reflexivity|congruence|].
  intros j Hj. assert (F : (nth j a 0 - nth j b 0) ^ 2 = 0).
  { refine (rsum_zero_inv (fun k => (nth k a 0 - nth k b 0) ^ 2) (seq 0 (length a)) _ E j _).
    - intros; apply pow2_ge_0.
    - apply in_seq; lia. }
  unfold vget. change (@n0 R _) with 0.
  assert (nth j a 0 - nth j b 0 = 0); [|lra].
  destruct (Req_dec (nth j a 0 - nth j b 0) 0) as [Z|Z]; [exact Z|]. exfalso. revert F. apply pow_nonzero. exact Z.
Qed.
Lemma sqdist_refl a : sqdist a a = 0.
Proof. unfold sqdist. rewrite (rsum_ext _ (fun _ => 0)); [apply rsum_zero|]. intros; ring. Qed.
Lemma dist_zero a b : length a = length b -> (dist a b = 0 <-> a = b).
Proof.
  intros H. split.
  - intros E. apply sqdist_zero; [exact H|]. rewrite <- dist_sq, E. ring.
  - intros ->. unfold dist. fold (sqdist b b). rewrite sqdist_refl. apply sqrt_0.
Qed.
Lemma dist_pos a b : length a = length b -> a <> b -> 0 < dist a b.
Proof.
  intros H N. destruct (dist_nonneg a b) as [L|E]; [exact L|]. exfalso. apply N. apply dist_zero; [exact H|]. symmetry; exact E.
Qed.

Lemma Req_bool_true x y : Req_bool x y = true <-> x = y.
Proof. unfold Req_bool. destruct (Req_EM_T x y); split; intros; congruence. Qed.
Lemma Req_bool_false x y : Req_bool x y = false <-> x <> y.
Proof. unfold Req_bool. destruct (Req_EM_T x y); split; intros; congruence. Qed.

(** ** One source *)
Lemma potential_away d grav safe s x : length (ps_pos s) = length x -> ps_pos s <> x ->
  potential d grav safe s x = Ok (field_sign grav * kernel d (ps_q s) (dist (ps_pos s) x)).
Proof.
  intros Hl Hn. unfold potential. rewrite vnorm_vsub by exact Hl.
  pose proof (dist_pos _ _ Hl Hn) as Hp. set (r := dist (ps_pos s) x) in *.
  assert (Req_bool r 0 = false) as -> by (apply Req_bool_false; lra). rewrite andb_false_r.
  unfold kernel, rdiv. destruct (d =? 2)%nat; destruct (Req_EM_T r 0); try lra; cbn [bind]; f_equal;
  unfold field_sign; destruct grav; lra.
Qed.
Lemma potential_at d grav safe s x : length (ps_pos s) = length x -> ps_pos s = x ->
  potential d grav safe s x = if safe then Ok 0 else NonFinite.
Proof.
  intros Hl Hn. unfold potential. rewrite vnorm_vsub by exact Hl.
  assert (E : dist (ps_pos s) x = 0) by (apply dist_zero; assumption). rewrite E.
  assert (Req_bool 0 0 = true) as -> by (apply Req_bool_true; reflexivity). rewrite andb_true_r.
  destruct safe; [reflexivity|]. unfold rdiv. destruct (d =? 2)%nat; destruct (Req_EM_T 0 0); try lra; reflexivity.
Qed.

Lemma is_at_true x s : is_at x s = true <-> ps_pos s = x.
Proof. unfold is_at. destruct (list_eq_dec Req_EM_T (ps_pos s) x); split; congruence. Qed.
Lemma is_at_false x s : is_at x s = false <-> ps_pos s <> x.
Proof. unfold is_at. destruct (list_eq_dec Req_EM_T (ps_pos s) x); split; congruence. Qed.

Lemma ofold_rsum {A} (f : R -> A -> outcome R) (g : A -> R) l z :
  (forall acc a, In a l -> f acc a = Ok (acc + g a)) -> ofold f l z = Ok (z + rsum g l).
Proof.
  revert z; induction l as [|a l IH]; intros z H; simpl.
  - f_equal. ring.
  - rewrite H by (left; reflexivity). simpl. rewrite IH.
    + f_equal. ring.
    + intros acc b Hb. apply H. right; exact Hb.
Qed.
Lemma ofold_fail {A S} (f : S -> A -> outcome S) l s a (o : outcome S) : In a l ->
  (forall s b, In b l -> (exists s', f s b = Ok s') \/ f s b = o) -> (forall s, f s a = o) ->
  (forall x, o <> Ok x) -> (forall B (g : _ -> outcome B), bind o g = match o with Ok x => g x | Throw => Throw | Abort => Abort
   | UB => UB | NonFinite => NonFinite | OutOfFuel => OutOfFuel end) -> ofold f l s = o.
Proof.
  intros Hin Hall Ha Ho _. revert s Hall; induction l as [|b l IH]; intros s Hall; [destruct Hin|].
  cbn [ofold]. destruct (Hall s b (or_introl eq_refl)) as [[s' E]|E].
  - rewrite E. cbn [bind]. destruct Hin as [->|Hin].
    + rewrite Ha in E. exfalso. exact (Ho _ E).
    + apply IH; [exact Hin|]. intros; apply Hall; right; assumption.
  - rewrite E. destruct o; try reflexivity. exfalso. exact (Ho a0 eq_refl).
Qed.

(** ** Several sources *)
Theorem potential_sum_safe d grav srcs x : same_dim (length x) srcs ->
  potential_sum d grav true srcs x = Ok (direct_potential d grav (filter (fun s => negb (is_at x s)) srcs) x).
Proof.
  intros Hd. unfold potential_sum, direct_potential. rewrite rsum_filter.
  rewrite (ofold_rsum _ (fun s => if negb (is_at x s) then field_sign grav * kernel d (ps_q s) (dist (ps_pos s) x) else 0)).
  - f_equal. ring.
  - intros acc s Hs. destruct (is_at x s) eqn:E; cbn [negb].
    + apply is_at_true in E. rewrite potential_at by (try assumption; apply Hd; exact Hs). reflexivity.
    + apply is_at_false in E. rewrite potential_away by (try assumption; apply Hd; exact Hs). reflexivity.
Qed.
Theorem potential_sum_away d grav safe srcs x : same_dim (length x) srcs -> (forall s, In s srcs -> ps_pos s <> x) ->
  potential_sum d grav safe srcs x = Ok (direct_potential d grav srcs x).
Proof.
  intros Hd Hn. unfold potential_sum, direct_potential.
  rewrite (ofold_rsum _ (fun s => field_sign grav * kernel d (ps_q s) (dist (ps_pos s) x))).
  - f_equal. ring.
  - intros acc s Hs. rewrite potential_away; [reflexivity|apply Hd; exact Hs|apply Hn; exact Hs].
Qed.
Theorem potential_sum_unsafe d grav srcs x : same_dim (length x) srcs ->
  (exists s, In s srcs /\ ps_pos s = x) -> potential_sum d grav false srcs x = NonFinite.
Proof.
  intros Hd [s [Hs E]]. unfold potential_sum. apply (ofold_fail _ _ _ s); [exact Hs| | |discriminate|reflexivity].
  - intros acc t Ht. destruct (is_at x t) eqn:Et.
    + apply is_at_true in Et. right. rewrite potential_at by (try assumption; apply Hd; exact Ht). reflexivity.
    + apply is_at_false in Et. left. rewrite potential_away by (try assumption; apply Hd; exact Ht). eexists; reflexivity.
  - intros acc. rewrite potential_at by (try assumption; apply Hd; exact Hs). reflexivity.
Qed.

Lemma direct_potential_app d g s1 s2 x : direct_potential d g (s1 ++ s2) x = direct_potential d g s1 x + direct_potential d g s2 x.
Proof. apply rsum_app. Qed.
Lemma direct_potential_perm d g s1 s2 x : Permutation s1 s2 -> direct_potential d g s1 x = direct_potential d g s2 x.
Proof. apply rsum_perm. Qed.

(** ** Forces *)
Definition force_vec (d : nat) (grav : bool) (eps : R) (s : psrc R) (x : list R) : list R :=
  map (force_on d grav eps s x) (seq 0 (length x)).

Lemma nth_map_seq {A} (f : nat -> A) n k d : (k < n)%nat -> nth k (map f (seq 0 n)) d = f k.
Proof.
  intros H. rewrite (nth_map_lt f (seq 0 n) k 0%nat) by (rewrite seq_length; exact H). rewrite seq_nth by exact H. reflexivity.
Qed.

Lemma scaled_diff (grav : bool) (s : psrc R) (x : list R) (f : R) : length (ps_pos s) = length x ->
  (if grav then vscale (vsub (ps_pos s) x) f else vneg (vscale (vsub (ps_pos s) x) f))
  = map (fun k => field_sign grav * ((nth k (ps_pos s) 0 - nth k x 0) * f)) (seq 0 (length x)).
Proof.
  intros Hl. apply (vec_ext _ _ (length x)).
  - destruct grav; rewrite ?len_vneg, len_vscale, len_vsub; lia.
  - rewrite map_length, seq_length. reflexivity.
  - intros j Hj. unfold vget at 2. rewrite nth_map_seq by exact Hj.
    destruct grav; rewrite ?vget_vneg by (rewrite ?len_vneg, len_vscale, len_vsub; lia);
    rewrite vget_vscale by (rewrite len_vsub; lia); rewrite vget_vsub by lia; unfold vget, field_sign;
    change (@n0 R _) with 0; ring.
Qed.

Lemma forcefield_eval d grav safe eps s x : length (ps_pos s) = length x -> (safe = true -> ps_pos s <> x) ->
  force_den d eps (dist (ps_pos s) x) <> 0 ->
  forcefield d grav safe eps s x = Ok (force_vec d grav eps s x).
Proof.
  intros Hl Hn Hden. unfold forcefield, force_vec, force_on. unfold force_den in *.
  rewrite vnorm_vsub, vnorm_sq_vsub by exact Hl. rewrite <- dist_sq.
  assert (Hs : forall b, (b = true -> dist (ps_pos s) x = 0) -> safe && b = false).
  { intros b Hb. destruct safe; [|reflexivity]. destruct b; [|reflexivity].
    exfalso. apply (Hn eq_refl). apply dist_zero; [exact Hl|]. apply Hb. reflexivity. }
  set (r := dist (ps_pos s) x) in *.
  destruct (d =? 2)%nat.
  - rewrite (Hs (Req_bool (r * r) 0)).
    2:{ intros E. apply Req_bool_true in E. apply Rmult_integral in E. destruct E; assumption. }
    unfold rdiv. replace (r * r + eps) with (r ^ 2 + eps) by ring.
    destruct (Req_EM_T (r ^ 2 + eps) 0); [contradiction|]. cbn [bind]. f_equal.
    rewrite scaled_diff by exact Hl. apply map_ext. intros k. field. exact Hden.
  - rewrite (Hs (Req_bool r 0)).
    2:{ intros E. apply Req_bool_true in E. exact E. }
    unfold rdiv. replace (r * r * r + eps) with (r ^ 3 + eps) by ring.
    destruct (Req_EM_T (r ^ 3 + eps) 0); [contradiction|]. cbn [bind]. f_equal.
    rewrite scaled_diff by exact Hl. apply map_ext. intros k. field. exact Hden.
Qed.
Lemma forcefield_singular d grav safe eps s x : length (ps_pos s) = length x -> (safe = true -> ps_pos s <> x) ->
  force_den d eps (dist (ps_pos s) x) = 0 -> forcefield d grav safe eps s x = NonFinite.
Proof.
  intros Hl Hn Hden. unfold forcefield. unfold force_den in *.
  rewrite vnorm_vsub, vnorm_sq_vsub by exact Hl. rewrite <- dist_sq.
  assert (Hs : forall b, (b = true -> dist (ps_pos s) x = 0) -> safe && b = false).
  { intros b Hb. destruct safe; [|reflexivity]. destruct b; [|reflexivity].
    exfalso. apply (Hn eq_refl). apply dist_zero; [exact Hl|]. apply Hb. reflexivity. }
  set (r := dist (ps_pos s) x) in *.
  destruct (d =? 2)%nat.
  - rewrite (Hs (Req_bool (r * r) 0)).
    2:{ intros E. apply Req_bool_true in E. apply Rmult_integral in E. destruct E; assumption. }
    unfold rdiv. replace (r * r + eps) with (r ^ 2 + eps) by ring.
    destruct (Req_EM_T (r ^ 2 + eps) 0); [reflexivity|contradiction].
  - rewrite (Hs (Req_bool r 0)).
    2:{ intros E. apply Req_bool_true in E. exact E. }
    unfold rdiv. replace (r * r * r + eps) with (r ^ 3 + eps) by ring.
    destruct (Req_EM_T (r ^ 3 + eps) 0); [reflexivity|contradiction].
Qed.
Lemma forcefield_at_safe d grav eps s x : length (ps_pos s) = length x -> ps_pos s = x ->
  forcefield d grav true eps s x = Ok (vzero d).
Proof.
  intros Hl Hn. unfold forcefield.
  rewrite vnorm_vsub, vnorm_sq_vsub by exact Hl. rewrite <- dist_sq.
  assert (E : dist (ps_pos s) x = 0) by (apply dist_zero; assumption). rewrite E, Rmult_0_l.
  assert (Req_bool 0 0 = true) as -> by (apply Req_bool_true; reflexivity). destruct (d =? 2)%nat; reflexivity.
Qed.
Lemma force_den_pos d eps r : 0 < r -> 0 <= eps -> 0 < force_den d eps r.
Proof. intros. unfold force_den. destruct (d =? 2)%nat; [pose proof (pow_lt r 2 H)|pose proof (pow_lt r 3 H)]; lra. Qed.

Lemma ofold_vadd {A} d (f : list R -> A -> outcome (list R)) (g : A -> nat -> R) l : forall z : nat -> R,
  (forall z a, In a l -> f (map z (seq 0 d)) a = Ok (map (fun k => z k + g a k) (seq 0 d))) ->
  ofold f l (map z (seq 0 d)) = Ok (map (fun k => z k + rsum (fun a => g a k) l) (seq 0 d)).
Proof.
  induction l as [|a l IH]; intros z H; cbn [ofold].
  - f_equal. apply map_ext. intros k. simpl. ring.
  - rewrite H by (left; reflexivity). cbn [bind]. rewrite IH.
    + f_equal. apply map_ext. intros k. rewrite rsum_cons. ring.
    + intros z' b Hb. apply H. right; exact Hb.
Qed.
Lemma vadd_map_seq (f g : nat -> R) d : vadd (map f (seq 0 d)) (map g (seq 0 d)) = map (fun k => f k + g k) (seq 0 d).
Proof.
  unfold vadd. change (@nadd R _) with Rplus.
  unfold map2. generalize 0%nat. induction d as [|d IH]; intros a; simpl; [reflexivity|]. f_equal. apply IH.
Qed.
Lemma vzero_map d : vzero d = map (fun _ => 0) (seq 0 d).
Proof. unfold vzero. generalize 0%nat. induction d as [|d IH]; intros a; simpl; [reflexivity|]. f_equal. apply IH. Qed.

Theorem forcefield_sum_eval d grav safe eps srcs x : length x = d -> same_dim d srcs ->
  (forall s, In s srcs -> (safe = true -> ps_pos s <> x) /\ force_den d eps (dist (ps_pos s) x) <> 0) ->
  forcefield_sum d grav safe eps srcs x = Ok (direct_force d grav eps srcs x).
Proof.
  intros Hx Hd Hn. unfold forcefield_sum, direct_force. rewrite vzero_map.
  rewrite (ofold_vadd d _ (fun s k => force_on d grav eps s x k)).
  - f_equal. apply map_ext. intros; ring.
  - intros z s Hs. destruct (Hn s Hs) as [H1 H2].
    rewrite forcefield_eval; [|rewrite (Hd s Hs); congruence|exact H1|exact H2].
    cbn [bind]. unfold force_vec. rewrite Hx. rewrite vadd_map_seq. reflexivity.
Qed.
Theorem forcefield_sum_safe d grav eps srcs x : length x = d -> same_dim d srcs -> 0 <= eps ->
  forcefield_sum d grav true eps srcs x = Ok (direct_force d grav eps (filter (fun s => negb (is_at x s)) srcs) x).
Proof.
  intros Hx Hd He. unfold forcefield_sum, direct_force. rewrite vzero_map.
  rewrite (ofold_vadd d _ (fun s k => if negb (is_at x s) then force_on d grav eps s x k else 0)).
  - f_equal. apply map_ext. intros k. rewrite rsum_filter. ring.
  - intros z s Hs. assert (Hl : length (ps_pos s) = length x) by (rewrite (Hd s Hs); congruence).
    destruct (is_at x s) eqn:E; cbn [negb].
    + apply is_at_true in E. rewrite forcefield_at_safe by assumption. cbn [bind]. rewrite vzero_map, vadd_map_seq. reflexivity.
    + apply is_at_false in E. rewrite forcefield_eval; [|exact Hl|intros _; exact E|].
      * cbn [bind]. unfold force_vec. rewrite Hx, vadd_map_seq. reflexivity.
      * apply Rgt_not_eq. apply force_den_pos; [apply dist_pos; assumption|exact He].
Qed.
Theorem forcefield_sum_unsafe d grav srcs x : length x = d -> same_dim d srcs ->
  (exists s, In s srcs /\ ps_pos s = x) -> forcefield_sum d grav false 0 srcs x = NonFinite.
Proof.
  intros Hx Hd [s [Hs E]].
  assert (Hat : forall t, In t srcs -> ps_pos t = x -> forcefield d grav false 0 t x = NonFinite).
  { intros t Ht Et. apply forcefield_singular; [rewrite Et; reflexivity|discriminate|].
    assert (E0 : dist (ps_pos t) x = 0) by (apply dist_zero; [rewrite Et; reflexivity|exact Et]). rewrite E0.
    unfold force_den. destruct (d =? 2)%nat; ring. }
  unfold forcefield_sum. apply (ofold_fail _ _ _ s); [exact Hs| | |discriminate|reflexivity].
  - intros acc t Ht. destruct (is_at x t) eqn:Et.
    + apply is_at_true in Et. right. rewrite Hat by assumption. reflexivity.
    + apply is_at_false in Et. left. assert (Hl : length (ps_pos t) = length x) by (rewrite (Hd t Ht); congruence).
      rewrite forcefield_eval; [eexists; reflexivity|exact Hl|discriminate|].
      apply Rgt_not_eq. apply force_den_pos; [apply dist_pos; assumption|lra].
  - intros acc. rewrite Hat by assumption. reflexivity.
Qed.

(** ** Force is minus the gradient *)
Lemma lset_nth_same (x : list R) k t : (k < length x)%nat -> nth k (lset x k t) 0 = t.
Proof. revert k; induction x as [|a x IH]; intros [|k] H; simpl in *; try lia; [reflexivity|]. apply IH. lia. Qed.
Lemma lset_nth_other (x : list R) k j t : j <> k -> nth j (lset x k t) 0 = nth j x 0.
Proof. revert k j; induction x as [|a x IH]; intros [|k] [|j] H; simpl; try lia; try reflexivity. apply IH. lia. Qed.
Lemma lset_id (x : list R) k : lset x k (nth k x 0) = x.
Proof. revert k; induction x as [|a x IH]; intros [|k]; simpl; try reflexivity. f_equal. apply IH. Qed.

Lemma sqdist_deriv a x k : length a = length x -> (k < length x)%nat ->
  is_derive (fun t => sqdist a (lset x k t)) (nth k x 0) (- 2 * (nth k a 0 - nth k x 0)).
Proof.
  intros Hl Hk. unfold sqdist.
  replace (- 2 * (nth k a 0 - nth k x 0))
    with (rsum (fun j => if (j =? k)%nat then - 2 * (nth k a 0 - nth k x 0) else 0) (seq 0 (length a))).
  - apply (is_derive_rsum (fun j t => (nth j a 0 - nth j (lset x k t) 0) ^ 2)).
    intros j Hj. apply in_seq in Hj. destruct (Nat.eqb_spec j k) as [->|N].
    + apply (is_derive_ext (fun t => (nth k a 0 - t) ^ 2)).
      * intros t. rewrite lset_nth_same by exact Hk. reflexivity.
      * auto_derive; [exact I|]. ring.
    + apply (is_derive_ext (fun t => (nth j a 0 - nth j x 0) ^ 2)).
      * intros t. rewrite lset_nth_other by exact N. reflexivity.
      * apply (is_derive_const (V := R_NormedModule)).
  - rewrite Hl. revert Hk. generalize (- 2 * (nth k a 0 - nth k x 0)) (length x). clear. intros v n Hk.
    induction n as [|n IH]; [lia|]. rewrite rsum_seq_S. rewrite Nat.add_0_l.
    destruct (Nat.eqb_spec n k) as [->|N].
    + rewrite (rsum_ext _ (fun _ => 0)); [rewrite rsum_zero; ring|].
      intros j Hj. apply in_seq in Hj. destruct (Nat.eqb_spec j k); [lia|reflexivity].
    + rewrite IH by lia. ring.
Qed.

Lemma kernel_deriv d grav s x k : (d = 2 \/ d = 3)%nat -> length (ps_pos s) = length x -> (k < length x)%nat -> ps_pos s <> x ->
  is_derive (fun t => field_sign grav * kernel d (ps_q s) (dist (ps_pos s) (lset x k t))) (nth k x 0)
    (- force_on d grav 0 s x k).
Proof.
  intros Hd Hl Hk Hn. pose proof (sqdist_deriv (ps_pos s) x k Hl Hk) as HS.
  pose proof (dist_pos _ _ Hl Hn) as Hr. pose proof (dist_sq (ps_pos s) x) as Hsq.
  set (S := fun t => sqdist (ps_pos s) (lset x k t)) in *. set (S' := - 2 * (nth k (ps_pos s) 0 - nth k x 0)) in *.
  assert (S0 : S (nth k x 0) = sqdist (ps_pos s) x) by (unfold S; rewrite lset_id; reflexivity).
  assert (Sp : 0 < S (nth k x 0)) by (rewrite S0, <- Hsq; apply Rmult_lt_0_compat; exact Hr).
  assert (Hsqrt : sqrt (S (nth k x 0)) = dist (ps_pos s) x) by (rewrite S0; reflexivity).
  assert (HD : is_derive (fun t => dist (ps_pos s) (lset x k t)) (nth k x 0) (S' / (2 * dist (ps_pos s) x))).
  { apply (is_derive_ext (fun t => sqrt (S t))); [reflexivity|].
    rewrite <- Hsqrt. exact (is_derive_sqrt S (nth k x 0) S' HS Sp). }
  set (D := fun t => dist (ps_pos s) (lset x k t)) in *.
  assert (D0 : D (nth k x 0) = dist (ps_pos s) x) by (unfold D; rewrite lset_id; reflexivity).
  set (r := dist (ps_pos s) x) in *.
  unfold force_on, force_den. fold r.
  destruct Hd as [-> | ->]; unfold kernel; cbn [Nat.eqb].
  - apply (is_derive_ext (fun t => (field_sign grav * ps_q s) * ln (D t))); [intros; unfold D; apply Rmult_assoc|].
    replace (- (field_sign grav * (ps_q s * (nth k (ps_pos s) 0 - nth k x 0) / (r ^ 2 + 0))))
      with ((field_sign grav * ps_q s) * (S' / (2 * r) * / r)) by (unfold S'; field; lra).
    apply (is_derive_scal (fun t => ln (D t))).
    apply (is_derive_comp (V := R_NormedModule) ln D).
    + rewrite D0. apply is_derive_ln. exact Hr.
    + exact HD.
  - apply (is_derive_ext (fun t => (field_sign grav * - ps_q s) * / (D t))).
    { intros t. change ((field_sign grav * - ps_q s) * / dist (ps_pos s) (lset x k t)
        = field_sign grav * (- ps_q s * / dist (ps_pos s) (lset x k t))). ring. }
    replace (- (field_sign grav * (ps_q s * (nth k (ps_pos s) 0 - nth k x 0) / (r ^ 3 + 0))))
      with ((field_sign grav * - ps_q s) * (- (S' / (2 * r)) / (r ^ 2))) by (unfold S'; field; lra).
    apply (is_derive_scal (fun t => / D t)).
    rewrite <- D0 at 2. apply (is_derive_inv D); [exact HD|]. rewrite D0. lra.
Qed.

Theorem force_is_minus_gradient d grav srcs x k : (d = 2 \/ d = 3)%nat -> length x = d -> same_dim d srcs -> (k < d)%nat ->
  (forall s, In s srcs -> ps_pos s <> x) ->
  is_derive (fun t => direct_potential d grav srcs (lset x k t)) (nth k x 0)
    (- nth k (direct_force d grav 0 srcs x) 0).
Proof.
  intros Hd Hx Hs Hk Hn. unfold direct_force. rewrite nth_map_seq by exact Hk. rewrite <- rsum_opp.
  unfold direct_potential.
  induction srcs as [|s srcs IH].
  - cbn [rsum fold_right]. apply (is_derive_const (V := R_NormedModule)).
  - apply (is_derive_plus (V := R_NormedModule)
       (fun t => field_sign grav * kernel d (ps_q s) (dist (ps_pos s) (lset x k t)))).
    + apply kernel_deriv; [exact Hd|rewrite (Hs s (or_introl eq_refl)); congruence|lia|apply Hn; left; reflexivity].
    + apply IH; [intros t Ht; apply Hs; right; exact Ht|intros t Ht; apply Hn; right; exact Ht].
Qed.
