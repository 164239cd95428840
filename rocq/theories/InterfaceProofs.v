(** Proofs about the flat-array interfaces, the integrator and the files. *)
From Coq Require Import List Bool ZArith Arith Lia Lra Reals Permutation.
From Verif Require Import Num Outcome Vec Tables TableProofs CAux Schedule Fields FieldSpec FieldSchedules FmmPasses FmmApi FmmApiProofs Interfaces.
Import ListNotations.
Local Open Scope outcome_scope.

(** ** Loops that fill an array *)
Definition exactly {A} (P : outcome A -> Prop) (x : outcome A) : Prop := forall r, P r <-> r = x.
Lemma andthen_ok {A B} (P : outcome A -> Prop) (Q : A -> outcome B -> Prop) a x : exactly P (Ok a) -> exactly (Q a) x -> exactly (andthen P Q) x.
Proof.
  intros HP HQ r. unfold andthen. split.
  - intros (b & Hb & H). apply HP in Hb. subst b. apply HQ. exact H.
  - intros ->. exists (Ok a). split; [apply HP; reflexivity|apply HQ; reflexivity].
Qed.
Lemma andthen_ub {A B} (P : outcome A -> Prop) (Q : A -> outcome B -> Prop) : exactly P UB -> exactly (andthen P Q) UB.
Proof.
  intros HP r. unfold andthen. split.
  - intros (b & Hb & H). apply HP in Hb. subst b. exact H.
  - intros ->. exists UB. split; [apply HP; reflexivity|reflexivity].
Qed.
Lemma wr_ok {A} (v : list A) k x : (k < length v)%nat -> wr v k x = Ok (lset v k x).
Proof. intros H. unfold wr. destruct (Nat.ltb_spec k (length v)); [reflexivity|lia]. Qed.
Lemma rd_ok {A} (v : list A) k d : (k < length v)%nat -> rd v k = Ok (nth k v d).
Proof. intros H. unfold rd. rewrite (nth_error_nth' v d H). reflexivity. Qed.
Lemma rd_ub {A} (v : list A) k : (length v <= k)%nat -> rd v k = UB.
Proof. intros H. unfold rd. apply nth_error_None in H. rewrite H. reflexivity. Qed.

Lemma fill_run {A} (d0 : A) (st : nat -> list A -> outcome (list A)) (val : nat -> A) n v0 idx :
  (forall k v, (k < n)%nat -> length v = n -> st k v = Ok (lset v k (val k))) -> length v0 = n -> Permutation idx (seq 0 n) ->
  ofold (fun s f => f s) (map st idx) v0 = Ok (map val (seq 0 n)).
Proof.
  intros H L P. assert (ND : NoDup idx) by (eapply Permutation_NoDup; [apply Permutation_sym; exact P|apply seq_NoDup]).
  assert (HI : forall i, In i idx -> (i < n)%nat) by (intros i Hi; apply (Permutation_in _ P), in_seq in Hi; lia).
  assert (E : forall l v, (forall i, In i l -> (i < n)%nat) -> length v = n -> ofold (fun s f => f s) (map st l) v = Ok (fold_left (fun v i => lset v i (val i)) l v)).
  { induction l as [|i l IH]; intros v Hl Hv; [reflexivity|]. cbn [map ofold fold_left]. rewrite H by (try assumption; apply Hl; left; reflexivity).
    cbn [bind]. apply IH; [intros j Hj; apply Hl; right; exact Hj|rewrite lset_length; exact Hv]. }
  rewrite E by assumption. f_equal. destruct (lset_seq d0 val idx n v0 ND HI L) as [L1 V].
  apply (nth_ext _ _ d0 d0); [rewrite L1, map_length, seq_length; reflexivity|]. intros k Hk. rewrite L1 in Hk. rewrite V by exact Hk.
  destruct (in_dec Nat.eq_dec k idx) as [_|N]; [|exfalso; apply N, (Permutation_in _ (Permutation_sym P)), in_seq; lia].
  rewrite (nth_indep _ d0 (val 0%nat)) by (rewrite map_length, seq_length; exact Hk). rewrite map_nth, seq_nth by exact Hk. reflexivity.
Qed.
Lemma par_fill {A} (d0 : A) (st : nat -> list A -> outcome (list A)) (val : nat -> A) n v0 (idx : list (list nat)) :
  (forall k v, (k < n)%nat -> length v = n -> st k v = Ok (lset v k (val k))) -> length v0 = n -> Permutation (concat idx) (seq 0 n) ->
  exactly (par_loop (map (map st) idx) v0) (Ok (map val (seq 0 n))).
Proof.
  intros H L P r. assert (G : forall run, interleaving (map (map st) idx) run -> ofold (fun s f => f s) run v0 = Ok (map val (seq 0 n))).
  { intros run I. apply interleaving_perm in I. rewrite <- concat_map in I. apply Permutation_sym, Permutation_map_inv in I. destruct I as (l & -> & Pl).
    apply (fill_run d0) ; try assumption. eapply Permutation_trans; [apply Permutation_sym; exact Pl|exact P]. }
  split.
  - intros (run & I & ->). apply G. exact I.
  - intros ->. eexists. split; [apply interleaving_seq|]. symmetry. apply G. apply interleaving_seq.
Qed.
Lemma concat_single {A} (l : list A) : concat (map (fun a => [a]) l) = l.
Proof. induction l as [|a l IH]; [reflexivity|]. cbn. rewrite IH. reflexivity. Qed.
(** One step in each iteration. *)
Lemma par_fill1 {A} (d0 : A) (st : nat -> list A -> outcome (list A)) (val : nat -> A) n v0 :
  (forall k v, (k < n)%nat -> length v = n -> st k v = Ok (lset v k (val k))) -> length v0 = n ->
  exactly (par_loop (map (fun i => [st i]) (seq 0 n)) v0) (Ok (map val (seq 0 n))).
Proof.
  intros H L. replace (map (fun i => [st i]) (seq 0 n)) with (map (map st) (map (fun a => [a]) (seq 0 n))) by (rewrite map_map; reflexivity).
  apply (par_fill d0); try assumption. rewrite concat_single. apply Permutation_refl.
Qed.
(** A loop with a step that is undefined, whatever the others do. *)
Lemma par_undefined {S} (P : S -> Prop) (its : list (list (S -> outcome S))) s :
  P s -> (forall f v, In f (concat its) -> P v -> f v = UB \/ exists v', f v = Ok v' /\ P v') ->
  (exists f, In f (concat its) /\ forall v, P v -> f v = UB) -> exactly (par_loop its s) UB.
Proof.
  intros Hs H E r. assert (G : forall run, interleaving its run -> ofold (fun s f => f s) run s = UB).
  { intros run I. apply interleaving_perm in I. destruct E as (f & Hf & Ef).
    assert (K : forall l v, P v -> (forall g, In g l -> In g (concat its)) -> In f l -> ofold (fun s f => f s) l v = UB).
    { induction l as [|g l IH]; intros v Hv Hl Hin; [destruct Hin|]. cbn [ofold].
      destruct (H g v (Hl g (or_introl eq_refl)) Hv) as [U|(v' & U & Hv')]; rewrite U; [reflexivity|]. cbn [bind]. destruct Hin as [Eg|Hin].
      - subst g. rewrite (Ef v Hv) in U. discriminate.
      - apply IH; [exact Hv'|intros; apply Hl; right; assumption|exact Hin]. }
    apply K; [exact Hs|intros g Hg; apply (Permutation_in _ (Permutation_sym I)); exact Hg|apply (Permutation_in _ I); exact Hf]. }
  split.
  - intros (run & I & ->). apply G. exact I.
  - intros ->. eexists. split; [apply interleaving_seq|]. symmetry. apply G, interleaving_seq.
Qed.

(** ** Specification: the points in a flat array *)
Definition point_at (d : nat) (data : list R) (i : nat) : list R := firstn d (skipn (d * i) data).
Definition points_in (d : nat) (data : list R) : list (list R) := map (point_at d data) (seq 0 (length data / d)).
Definition sources_in (d : nat) (pos chg : list R) : list (psrc R) :=
  map (fun i => PSrc (point_at d pos i) (nth i chg 0%R)) (seq 0 (length pos / d)).

Lemma firstn_nth {A} (d0 : A) d l : (d <= length l)%nat -> firstn d l = map (fun j => nth j l d0) (seq 0 d).
Proof.
  revert l. induction d as [|d IH]; intros l H; [reflexivity|]. destruct l as [|a l]; [cbn in H; lia|]. cbn [firstn seq map nth]. f_equal.
  rewrite IH by (cbn in H; lia). rewrite <- seq_shift, map_map. reflexivity.
Qed.
Lemma nth_skipn' {A} (d0 : A) k l j : nth j (skipn k l) d0 = nth (k + j) l d0.
Proof. revert l. induction k as [|k IH]; intros l; [reflexivity|]. destruct l as [|a l]; [cbn; destruct j; reflexivity|]. cbn [skipn Nat.add nth]. apply IH. Qed.
Lemma in_count d n i j : (0 < d)%nat -> (i < n / d)%nat -> (j < d)%nat -> (d * i + j < n)%nat.
Proof. intros Hd Hi Hj. assert (Q := Nat.mul_div_le n d ltac:(lia)). nia. Qed.
Lemma omapM_ok' {A B} (f : A -> outcome B) (g : A -> B) l : (forall a, In a l -> f a = Ok (g a)) -> omapM f l = Ok (map g l).
Proof.
  induction l as [|a l IH]; intros H; [reflexivity|]. cbn [omapM map]. rewrite H by (left; reflexivity). cbn [bind].
  rewrite IH by (intros; apply H; right; assumption). reflexivity.
Qed.
Lemma read_point_gen d data i : (0 < d)%nat -> (d * S i <= length data)%nat -> read_point d data i = Ok (point_at d data i).
Proof.
  intros Hd Hi. unfold read_point. rewrite (omapM_ok' _ (fun j => nth (d * i + j) data 0%R)).
  - f_equal. unfold point_at. rewrite (firstn_nth 0%R) by (rewrite skipn_length; nia). apply map_ext. intros j. symmetry. apply nth_skipn'.
  - intros j Hj. apply in_seq in Hj. apply rd_ok. nia.
Qed.
Lemma read_point_ok d data i : (0 < d)%nat -> (i < length data / d)%nat -> read_point d data i = Ok (point_at d data i).
Proof. intros Hd Hi. apply read_point_gen; [exact Hd|]. assert (Q := Nat.mul_div_le (length data) d ltac:(lia)). nia. Qed.
Lemma point_at_length d data i : (0 < d)%nat -> (i < length data / d)%nat -> length (point_at d data i) = d.
Proof.
  intros Hd Hi. unfold point_at. rewrite firstn_length, skipn_length. assert (Q := Nat.mul_div_le (length data) d ltac:(lia)). nia.
Qed.
Lemma sources_in_dim d pos chg : (0 < d)%nat -> same_dim d (sources_in d pos chg).
Proof.
  intros Hd s Hs. unfold sources_in in Hs. apply in_map_iff in Hs. destruct Hs as (i & <- & Hi). apply in_seq in Hi. cbn [ps_pos]. apply point_at_length; [exact Hd|lia].
Qed.
Lemma sources_in_length d pos chg : length (sources_in d pos chg) = (length pos / d)%nat.
Proof. unfold sources_in. rewrite map_length, seq_length. reflexivity. Qed.

Theorem unpack_sources_ok d pos chg : (0 < d)%nat -> (length pos / d <= length chg)%nat ->
  exactly (unpack_sources d pos chg) (Ok (sources_in d pos chg)).
Proof.
  intros Hd Hc. unfold unpack_sources, sources_in. apply (par_fill1 (PSrc [] 0%R)); [|apply repeat_length].
  intros k v Hk Hv. unfold unpack_step. rewrite read_point_ok by assumption. cbn [bind]. rewrite (rd_ok _ _ 0%R) by lia. cbn [bind]. apply wr_ok. lia.
Qed.
Theorem unpack_sources_short d pos chg : (0 < d)%nat -> (length chg < length pos / d)%nat -> exactly (unpack_sources d pos chg) UB.
Proof.
  intros Hd Hc. unfold unpack_sources. set (n := (length pos / d)%nat) in *.
  assert (E : concat (map (fun i => [unpack_step d pos chg i]) (seq 0 n)) = map (unpack_step d pos chg) (seq 0 n)).
  { rewrite <- (map_map (unpack_step d pos chg) (fun a => [a])). apply concat_single. }
  apply (par_undefined (fun v => length v = n)); [apply repeat_length| |]; rewrite E.
  - intros f v Hf Hv. apply in_map_iff in Hf. destruct Hf as (i & <- & Hi). apply in_seq in Hi. unfold unpack_step. rewrite read_point_ok by (try assumption; unfold n in *; lia). cbn [bind].
    destruct (le_lt_dec (length chg) i) as [L|L]; [left; rewrite rd_ub by exact L; reflexivity|right].
    rewrite (rd_ok _ _ 0%R) by exact L. cbn [bind]. rewrite wr_ok by lia. eexists. split; [reflexivity|]. rewrite lset_length. exact Hv.
  - exists (unpack_step d pos chg (length chg)). split; [apply in_map, in_seq; lia|]. intros v Hv. unfold unpack_step.
    rewrite read_point_ok by assumption. cbn [bind]. rewrite rd_ub by lia. reflexivity.
Qed.
Theorem unpack_points_ok d pts : (0 < d)%nat -> exactly (unpack_points d pts) (Ok (points_in d pts)).
Proof.
  intros Hd. unfold unpack_points, points_in. apply (par_fill1 [] (fun i v => do x <- read_point d pts i ;; wr v i x)); [|apply repeat_length].
  intros k v Hk Hv. rewrite read_point_ok by assumption. cbn [bind]. apply wr_ok. lia.
Qed.

(** ** Writing *)
Lemma concat_seq d n a : concat (map (fun i => map (fun j => (a + d * i + j)%nat) (seq 0 d)) (seq 0 n)) = seq a (d * n).
Proof.
  revert a. induction n as [|n IH]; intros a; [rewrite Nat.mul_0_r; reflexivity|]. cbn [seq map concat].
  rewrite <- seq_shift, map_map. replace (d * S n)%nat with (d + d * n)%nat by lia. rewrite seq_app. f_equal.
  - clear IH. rewrite Nat.mul_0_r, Nat.add_0_r. revert a. induction d as [|d IHd]; intros a; [reflexivity|]. cbn [seq map]. f_equal; [lia|]. rewrite <- seq_shift, map_map.
    rewrite <- (IHd (S a)). apply map_ext. intros; lia.
  - rewrite <- (IH (a + d)%nat). f_equal. apply map_ext. intros i. apply map_ext. intros j. lia.
Qed.
Lemma concat_nth {A} (d0 : A) d (F : list (list A)) : (forall f, In f F -> length f = d) -> (0 < d)%nat ->
  concat F = map (fun k => nth (k mod d) (nth (k / d) F []) d0) (seq 0 (d * length F)).
Proof.
  intros H Hd. apply (nth_ext _ _ d0 d0).
  - rewrite map_length, seq_length. clear -H. induction F as [|f F IH]; [cbn; lia|]. cbn [concat length]. rewrite app_length, IH, (H f) by (try (left; reflexivity); intros; apply H; right; assumption). lia.
  - intros k Hk. assert (LL : length (concat F) = (d * length F)%nat).
    { clear -H. induction F as [|f F IH]; [cbn; lia|]. cbn [concat length]. rewrite app_length, IH, (H f) by (try (left; reflexivity); intros; apply H; right; assumption). lia. }
    rewrite LL in Hk. rewrite (nth_indep (map _ _) d0 ((fun k => nth (k mod d) (nth (k / d) F []) d0) 0%nat)) by (rewrite map_length, seq_length; exact Hk).
    rewrite (map_nth (fun k => nth (k mod d) (nth (k / d) F []) d0)), seq_nth by exact Hk. rewrite Nat.add_0_l.
    clear LL. revert k Hk. induction F as [|f F IH]; intros k Hk; [cbn in Hk; lia|]. cbn [concat]. assert (Lf : length f = d) by (apply H; left; reflexivity).
    destruct (lt_dec k d) as [L|L].
    + rewrite app_nth1 by lia. rewrite Nat.div_small, Nat.mod_small by exact L. reflexivity.
    + rewrite app_nth2 by lia. rewrite Lf. rewrite IH; [|intros; apply H; right; assumption|cbn [length] in Hk; lia].
      replace k with ((k - d) + 1 * d)%nat at 3 4 by lia. rewrite Nat.div_add, Nat.mod_add by lia. rewrite Nat.add_1_r. reflexivity.
Qed.
Theorem flatten_ok d n F out : (0 < d)%nat -> length F = n -> (forall f, In f F -> length f = d) -> length out = (n * d)%nat ->
  exactly (flatten d n F out) (Ok (concat F)).
Proof.
  intros Hd HF Hf Ho. unfold flatten.
  set (st := fun k => flatten_step d F (k / d) (k mod d)).
  replace (map (fun i => map (flatten_step d F i) (seq 0 d)) (seq 0 n)) with (map (map st) (map (fun i => map (fun j => (0 + d * i + j)%nat) (seq 0 d)) (seq 0 n))).
  - rewrite (concat_nth 0%R d F Hf Hd), HF. apply (par_fill 0%R st); [|nia|rewrite concat_seq; apply Permutation_refl].
    intros k v Hk Hv. unfold st, flatten_step.
    assert (Q1 : (k / d < n)%nat) by (apply Nat.div_lt_upper_bound; lia). assert (Q2 := Nat.mod_upper_bound k d ltac:(lia)).
    rewrite (rd_ok _ _ []) by lia. cbn [bind]. rewrite (rd_ok _ _ 0%R) by (rewrite Hf by (apply nth_In; lia); exact Q2). cbn [bind].
    rewrite <- Nat.div_mod by lia. apply wr_ok. lia.
  - rewrite map_map. apply map_ext. intros i. rewrite map_map. apply map_ext_in. intros j Hj. apply in_seq in Hj. unfold st.
    replace (0 + d * i + j)%nat with (j + i * d)%nat by lia. rewrite Nat.div_add, Nat.mod_add by lia. rewrite Nat.div_small, Nat.mod_small by lia. reflexivity.
Qed.
Lemma map_nth_seq {A} (d0 : A) l : map (fun i => nth i l d0) (seq 0 (length l)) = l.
Proof. rewrite <- (firstn_nth d0) by lia. apply firstn_all. Qed.
Theorem copy_out_ok n E out : length E = n -> length out = n -> exactly (copy_out n E out) (Ok E).
Proof.
  intros HE Ho. unfold copy_out. replace (Ok E) with (Ok (map (fun i => nth i E 0%R) (seq 0 n))) by (rewrite <- HE, map_nth_seq; reflexivity). apply (par_fill1 0%R (fun i out => do x <- rd E i ;; wr out i x)); [|exact Ho].
  intros k v Hk Hv. rewrite (rd_ok _ _ 0%R) by lia. cbn [bind]. apply wr_ok. lia.
Qed.
Theorem eval_out_ok (f : list R -> outcome R) (g : list R -> R) pts out : (forall x, In x pts -> f x = Ok (g x)) -> length out = length pts ->
  exactly (eval_out f pts out) (Ok (map g pts)).
Proof.
  intros H Ho. unfold eval_out. replace (Ok (map g pts)) with (Ok (map (fun i => g (nth i pts [])) (seq 0 (length pts)))) by (rewrite <- (map_map (fun i => nth i pts []) g), map_nth_seq; reflexivity).
  apply (par_fill1 0%R (fun i out => do x <- rd pts i ;; do v <- f x ;; wr out i v)); [|exact Ho].
  intros k v Hk Hv. rewrite (rd_ok _ _ []) by lia. cbn [bind]. rewrite H by (apply nth_In; lia). cbn [bind]. apply wr_ok. lia.
Qed.
