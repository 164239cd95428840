(** Facts about the power and binomial tables. *)
From Coq Require Import Reals List Arith Lra Lia.
From Coquelicot Require Import Complex.
From Verif Require Import Outcome Tables CAux.
Import ListNotations.
Local Open Scope nat_scope.

(** ** lset and resize *)
Lemma lset_length {A} (l : list A) k x : length (lset l k x) = length l.
Proof. revert k; induction l as [|a l IH]; intros [|k]; simpl; auto. Qed.
Lemma lset_same {A} (l : list A) k x : k < length l -> nth_error (lset l k x) k = Some x.
Proof. revert k; induction l as [|a l IH]; intros [|k] H; simpl in *; try lia; [reflexivity|]. apply IH. lia. Qed.
Lemma lset_other {A} (l : list A) k i x : i <> k -> nth_error (lset l k x) i = nth_error l i.
Proof.
  revert k i; induction l as [|a l IH]; intros [|k] [|i] H; simpl; try lia; try reflexivity.
  apply IH. lia.
Qed.
Lemma resize_length {A} (z : A) l n : length l <= n -> length (resize z l n) = n.
Proof. intros H. unfold resize. rewrite app_length, firstn_length, repeat_length. lia. Qed.
Lemma resize_old {A} (z : A) l n i : length l <= n -> i < length l -> nth_error (resize z l n) i = nth_error l i.
Proof. intros H Hi. unfold resize. rewrite firstn_all2 by lia. apply nth_error_app1. exact Hi. Qed.
Lemma nth_error_repeat_lt {A} (z : A) n i : i < n -> nth_error (repeat z n) i = Some z.
Proof. revert i; induction n as [|n IH]; intros [|i] H; simpl; try lia; [reflexivity|]. apply IH. lia. Qed.
Lemma resize_new {A} (z : A) l n i : length l <= i -> i < n -> nth_error (resize z l n) i = Some z.
Proof.
  intros H Hi. unfold resize. rewrite firstn_all2 by lia. rewrite nth_error_app2 by lia.
  apply nth_error_repeat_lt. lia.
Qed.

(** ** PowTable *)
Fixpoint gpow {T} (one : T) (mul : T -> T -> T) (x : T) (n : nat) : T :=
  match n with O => one | S m => mul (gpow one mul x m) x end.

Lemma pow_fill_length {T} mul (x y : T) n : length (pow_fill mul x y n) = n.
Proof. revert y; induction n as [|n IH]; intros y; simpl; auto. Qed.
Lemma pow_fill_get {T} mul (x : T) n : forall y i (f : nat -> T),
  f 0 = y -> (forall m, f (S m) = mul (f m) x) -> i < n -> nth_error (pow_fill mul x y n) i = Some (f i).
Proof.
  induction n as [|n IH]; intros y i f H0 HS Hi; [lia|].
  destruct i as [|i]; simpl; [rewrite H0; reflexivity|].
  apply (IH (mul y x) i (fun m => f (S m))); [rewrite HS, H0; reflexivity|intros m; apply HS|lia].
Qed.
Theorem pow_table_get {T} (one : T) mul x nmax n : n <= nmax ->
  pow_get (pow_table one mul x nmax) n = Ok (gpow one mul x n).
Proof.
  intros H. unfold pow_get, pow_table.
  rewrite (pow_fill_get mul x (S nmax) one n (gpow one mul x)); [reflexivity|reflexivity|reflexivity|lia].
Qed.
Lemma gpow_C (x : Complex.C) n : gpow (RtoC 1) Cmult x n = Cpow x n.
Proof.
  induction n as [|n IH]; simpl; [reflexivity|]. rewrite IH. apply Cmult_comm.
Qed.
Lemma gpow_R (x : R) n : gpow 1%R Rmult x n = (x ^ n)%R.
Proof. induction n as [|n IH]; simpl; [reflexivity|]. rewrite IH. apply Rmult_comm. Qed.
Lemma pow_table_C x nmax n : n <= nmax -> pow_get (pow_table (RtoC 1) Cmult x nmax) n = Ok (Cpow x n).
Proof. intros H. rewrite pow_table_get by exact H. rewrite gpow_C. reflexivity. Qed.

(** ** BinomialTable *)
Fixpoint tri (n : nat) : nat := match n with O => 0 | S m => tri m + S m end.
Lemma tri_eq n : (n * (n + 1)) / 2 = tri n.
Proof.
  induction n as [|n IH]; [reflexivity|].
  replace (S n * (S n + 1)) with (n * (n + 1) + (S n) * 2) by ring.
  rewrite Nat.div_add by lia. rewrite IH. reflexivity.
Qed.
Lemma bt_index_tri n k : bt_index n k = tri n + k.
Proof. unfold bt_index. rewrite tri_eq. reflexivity. Qed.
Lemma tri_mono n m : n <= m -> tri n <= tri m.
Proof. induction 1; simpl; lia. Qed.
Theorem bt_index_inj n k n' k' : k <= n -> k' <= n' -> bt_index n k = bt_index n' k' -> n = n' /\ k = k'.
Proof.
  rewrite !bt_index_tri. intros H H' E.
  assert (n = n').
  { destruct (Nat.lt_trichotomy n n') as [L|[L|L]]; [|exact L|].
    - pose proof (tri_mono (S n) n' L). simpl in *. lia.
    - pose proof (tri_mono (S n') n L). simpl in *. lia. }
  subst. lia.
Qed.
Lemma bt_size order : ((2 * order + 1) * (2 * order + 2)) / 2 = tri (S (2 * order)).
Proof. rewrite <- tri_eq. f_equal. lia. Qed.
Lemma bt_index_bound n k m : k <= n -> n <= m -> bt_index n k < tri (S m).
Proof. intros H H'. rewrite bt_index_tri. pose proof (tri_mono n m H'). simpl. lia. Qed.

Definition bt_pairs (order : nat) : list (nat * nat) :=
  flat_map (fun n => map (fun k => (n, k)) (seq 0 (S n))) (seq 0 (S order)).
Definition bt_writes (ps : list (nat * nat)) (t : list R) : list R :=
  fold_left (fun t' nk => lset t' (bt_index (fst nk) (snd nk)) (INR (choose (fst nk) (snd nk)))) ps t.
Lemma fold_left_map {A B S} (f : S -> B -> S) (g : A -> B) l s :
  fold_left f (map g l) s = fold_left (fun s a => f s (g a)) l s.
Proof. revert s; induction l as [|a l IH]; intros s; cbn [map fold_left]; auto. Qed.
Lemma fold_left_flat_map {A B S} (f : S -> B -> S) (g : A -> list B) l s :
  fold_left f (flat_map g l) s = fold_left (fun s a => fold_left f (g a) s) l s.
Proof. revert s; induction l as [|a l IH]; intros s; cbn [flat_map fold_left]; [reflexivity|]. rewrite fold_left_app. auto. Qed.
Lemma bt_fill_writes order t : bt_fill order t = bt_writes (bt_pairs order) t.
Proof.
  unfold bt_fill, bt_writes, bt_pairs. rewrite fold_left_flat_map.
  generalize (seq 0 (S order)). intros l. revert t.
  induction l as [|n l IH]; intros t; [reflexivity|].
  cbn [fold_left]. rewrite fold_left_map. cbn [fst snd]. apply IH.
Qed.
Lemma in_bt_pairs order n k : In (n, k) (bt_pairs order) <-> k <= n /\ n <= order.
Proof.
  unfold bt_pairs. rewrite in_flat_map. split.
  - intros [m [Hm H]]. apply in_map_iff in H. destruct H as [j [E Hj]]. injection E as -> ->.
    apply in_seq in Hm. apply in_seq in Hj. lia.
  - intros [H1 H2]. exists n. split; [apply in_seq; lia|]. apply in_map_iff. exists k. split; [reflexivity|].
    apply in_seq. lia.
Qed.
Lemma bt_writes_length ps t : length (bt_writes ps t) = length t.
Proof.
  revert t; induction ps as [|q ps IH]; intros t; [reflexivity|].
  unfold bt_writes in *. cbn [fold_left]. rewrite IH. apply lset_length.
Qed.
Lemma bt_writes_out ps t i : (forall n k, In (n, k) ps -> bt_index n k <> i) ->
  nth_error (bt_writes ps t) i = nth_error t i.
Proof.
  revert t; induction ps as [|[n k] ps IH]; intros t H; [reflexivity|].
  unfold bt_writes in *. cbn [fold_left fst snd]. rewrite IH.
  - apply lset_other. intros E. apply (H n k); [left; reflexivity|]. symmetry. exact E.
  - intros n' k' Hn. apply H. right; exact Hn.
Qed.
Lemma bt_writes_in ps t n k : (forall n k, In (n, k) ps -> k <= n) -> k <= n -> bt_index n k < length t ->
  In (n, k) ps \/ nth_error t (bt_index n k) = Some (INR (choose n k)) ->
  nth_error (bt_writes ps t) (bt_index n k) = Some (INR (choose n k)).
Proof.
  intros Hv Hk. revert t; induction ps as [|[n' k'] ps IH]; intros t Hl H.
  - destruct H as [[]|H]; exact H.
  - unfold bt_writes in *. cbn [fold_left fst snd]. apply IH.
    + intros a b Hab. apply Hv. right; exact Hab.
    + rewrite lset_length. exact Hl.
    + destruct (Nat.eq_dec (bt_index n' k') (bt_index n k)) as [E|E].
      * right. rewrite E. apply bt_index_inj in E; [|apply Hv; left; reflexivity|exact Hk].
        destruct E as [-> ->]. apply lset_same. exact Hl.
      * destruct H as [[H|H]|H].
        -- exfalso. apply E. injection H as -> ->. reflexivity.
        -- left; exact H.
        -- right. rewrite lset_other by (intros X; apply E; symmetry; exact X). exact H.
Qed.

(** What the table holds once its order is [M >= 1]: the triangle up to [M] and zeros up to [2M]. *)
Record bt_ok (tb : btab) : Prop := mk_bt_ok {
  bt_len : length (bt_tab tb) = (if bt_max tb =? 0 then 0 else tri (S (2 * bt_max tb)));
  bt_low : forall n k, 1 <= bt_max tb -> k <= n -> n <= bt_max tb -> bt_get tb n k = Ok (INR (choose n k));
  bt_high : forall n k, k <= n -> bt_max tb < n -> n <= 2 * bt_max tb -> bt_get tb n k = Ok 0%R
}.

Lemma bt_init_ok : bt_ok bt_init.
Proof. split; simpl; [reflexivity| |]; intros; lia. Qed.
Lemma bt_refresh_max tb order : bt_max (bt_refresh tb order) = Nat.max (bt_max tb) order.
Proof. unfold bt_refresh. destruct (Nat.leb_spec order (bt_max tb)); simpl; lia. Qed.
Lemma bt_refresh_ok tb order : bt_ok tb -> bt_ok (bt_refresh tb order).
Proof.
  intros H. unfold bt_refresh. destruct (Nat.leb_spec order (bt_max tb)) as [L|L]; [exact H|].
  rewrite bt_size, bt_fill_writes.
  assert (Hlen : length (bt_tab tb) <= tri (S (2 * order))).
  { rewrite (bt_len _ H). destruct (bt_max tb =? 0); [lia|]. apply tri_mono. lia. }
  assert (Hl : length (bt_writes (bt_pairs order) (resize 0%R (bt_tab tb) (tri (S (2 * order))))) = tri (S (2 * order))).
  { rewrite bt_writes_length. apply resize_length. exact Hlen. }
  split; cbn [bt_max bt_tab].
  - rewrite Hl. destruct (Nat.eqb_spec order 0); [lia|reflexivity].
  - intros n k _ Hk Hn. unfold bt_get; cbn [bt_tab]. rewrite bt_writes_in; [reflexivity| |exact Hk| |].
    + intros n' k' Hi. apply in_bt_pairs in Hi. lia.
    + rewrite resize_length by exact Hlen. apply bt_index_bound; lia.
    + left. apply in_bt_pairs. lia.
  - intros n k Hk Hn Hn2. unfold bt_get; cbn [bt_tab]. rewrite bt_writes_out.
    + destruct (Nat.lt_ge_cases (bt_index n k) (length (bt_tab tb))) as [B|B].
      * (* an old slot beyond the new order was already zero *)
        rewrite resize_old by assumption.
        assert (n <= 2 * bt_max tb /\ bt_max tb <> 0) as [Hn3 Hm].
        { rewrite (bt_len _ H) in B. destruct (Nat.eqb_spec (bt_max tb) 0); [lia|]. split; [|assumption].
          destruct (Nat.le_gt_cases n (2 * bt_max tb)) as [Q|Q]; [exact Q|].
          pose proof (tri_mono (S (2 * bt_max tb)) n Q). rewrite bt_index_tri in B. lia. }
        change (bt_get tb n k = Ok 0%R). apply (bt_high _ H); lia.
      * rewrite resize_new; [reflexivity|exact B|]. apply bt_index_bound; lia.
    + intros n' k' Hi E. apply in_bt_pairs in Hi. apply bt_index_inj in E; lia.
Qed.

(** The table after expansions of the given orders have been constructed, one after the other. *)
