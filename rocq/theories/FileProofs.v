(** Proofs about reading and writing files. *)
From Coq Require Import List Bool ZArith Arith Lia Lra Reals Permutation.
From Verif Require Import Num Outcome Vec Tables TableProofs CAux Fields FieldSpec Interfaces InterfaceProofs IntegratorProofs.
Import ListNotations.
Local Open Scope R_scope.
Local Open Scope outcome_scope.

(** ** Specification *)
(** What a line says about its field number [k]: nothing if the line ends, or contains a token that is no number, before that field;
    such a token itself counts as zero. *)
Fixpoint field (line : list tok) (k : nat) : option R :=
  match line, k with
  | [], _ => None
  | TNum x :: _, O => Some x
  | TNum _ :: r, S k' => field r k'
  | TJunk :: _, O => Some 0
  | TJunk :: _, S _ => None
  end.
(** [x] is the value of field [k] in the last of the lines [0..i] that says anything about it. *)
Definition latest (lines : list (list tok)) (i k : nat) (x : R) : Prop :=
  exists m, (m <= i)%nat /\ field (nth m lines []) k = Some x /\ forall m', (m < m' <= i)%nat -> field (nth m' lines []) k = None.

(** ** One line *)
Definition upd (line : list tok) (k : nat) (x : option R) : option R := match field line k with Some y => Some y | None => x end.
Fixpoint mapi {A B} (f : nat -> A -> B) (k : nat) (l : list A) : list B := match l with [] => [] | a :: r => f k a :: mapi f (S k) r end.
Lemma extract_failed line xs : extract_all (true, line) xs = ((true, line), xs).
Proof. induction xs as [|x xs IH]; [reflexivity|]. cbn. rewrite IH. reflexivity. Qed.
Lemma mapi_ext {A B} (f g : nat -> A -> B) l k : (forall j a, (k <= j)%nat -> f j a = g j a) -> mapi f k l = mapi g k l.
Proof. revert k. induction l as [|a l IH]; intros k H; [reflexivity|]. cbn. rewrite H by lia. f_equal. apply IH. intros; apply H; lia. Qed.
Lemma mapi_shift {A B} (f : nat -> A -> B) l k : mapi (fun j => f (S j)) k l = mapi f (S k) l.
Proof. revert k. induction l as [|a l IH]; intros k; [reflexivity|]. cbn. f_equal. apply IH. Qed.
Lemma mapi_id {A} l k : mapi (fun _ (a : A) => a) k l = l.
Proof. revert k. induction l as [|a l IH]; intros k; [reflexivity|]. cbn. f_equal. apply IH. Qed.
Lemma extract_all_spec line xs : snd (extract_all (false, line) xs) = mapi (upd line) 0 xs.
Proof.
  revert line. induction xs as [|x xs IH]; intros line; [reflexivity|]. destruct line as [|[y|] line]; cbn [extract_all extract].
  - rewrite extract_failed. cbn [snd]. symmetry. exact (mapi_id (x :: xs) 0).
  - specialize (IH line). destruct (extract_all (false, line) xs) as [ss ys] eqn:E. cbn [snd mapi] in *. rewrite IH. f_equal. rewrite <- mapi_shift. reflexivity.
  - rewrite extract_failed. cbn [snd mapi]. f_equal. rewrite <- mapi_shift. cbn. symmetry. apply mapi_id.
Qed.
Lemma extract_all_app ss xs x : extract_all ss (xs ++ [x]) =
  let (ss1, ys) := extract_all ss xs in let (ss2, y) := extract ss1 x in (ss2, ys ++ [y]).
Proof.
  revert ss. induction xs as [|a xs IH]; intros ss; cbn [app extract_all].
  - destruct (extract ss x). reflexivity.
  - destruct (extract ss a) as [s1 b]. rewrite IH. destruct (extract_all s1 xs) as [s2 bs]. destruct (extract s2 x). reflexivity.
Qed.
Lemma mapi_app {A B} (f : nat -> A -> B) l l' k : mapi f k (l ++ l') = mapi f k l ++ mapi f (k + length l) l'.
Proof. revert k. induction l as [|a l IH]; intros k; cbn; [rewrite Nat.add_0_r; reflexivity|]. rewrite IH, Nat.add_succ_r. reflexivity. Qed.
Lemma mapi_length {A B} (f : nat -> A -> B) l k : length (mapi f k l) = length l.
Proof. revert k. induction l as [|a l IH]; intros k; cbn; [reflexivity|]. f_equal. apply IH. Qed.
Lemma read_line_spec pos charge acc line : read_line (pos, charge, acc) line =
  (let pos' := mapi (upd line) 0 pos in let charge' := upd line (length pos) charge in
   do x <- omapM value_of pos' ;; do q <- value_of charge' ;; Ok (pos', charge', acc ++ [PSrc x q])).
Proof.
  unfold read_line. assert (E1 := extract_all_spec line pos). assert (E2 := extract_all_spec line (pos ++ [charge])). rewrite extract_all_app in E2.
  destruct (extract_all (false, line) pos) as [ss pos']. cbn [snd] in E1. subst pos'. destruct (extract ss charge) as [s2 c']. cbn [snd] in E2. rewrite mapi_app in E2.
  apply app_inj_tail in E2. destruct E2 as [_ ->]. cbn [mapi Nat.add]. reflexivity.
Qed.

(** ** All lines *)
(** The value of the variable after the given lines. *)
Definition after (lines : list (list tok)) (k : nat) : option R := fold_left (fun x line => upd line k x) lines None.
Lemma after_snoc lines line k : after (lines ++ [line]) k = upd line k (after lines k).
Proof. unfold after. rewrite fold_left_app. reflexivity. Qed.
Lemma after_latest lines : forall k x, lines <> [] -> (after lines k = Some x <-> latest lines (length lines - 1) k x).
Proof.
  induction lines as [|line lines IH] using rev_ind; intros k x Hne; [contradiction|]. rewrite after_snoc. unfold upd. rewrite app_length. cbn [length].
  replace (length lines + 1 - 1)%nat with (length lines) by lia. clear Hne.
  assert (Last : nth (length lines) (lines ++ [line]) [] = line) by (rewrite app_nth2 by lia; rewrite Nat.sub_diag; reflexivity).
  destruct (field line k) as [z|] eqn:Ef.
  - split.
    + intros [= <-]. exists (length lines). split; [lia|]. rewrite Last. split; [exact Ef|]. intros; lia.
    + intros (m & Hm & Hf & Hn). destruct (Nat.eq_dec m (length lines)) as [->|N]; [rewrite Last, Ef in Hf; exact Hf|].
      specialize (Hn (length lines) ltac:(lia)). rewrite Last, Ef in Hn. discriminate.
  - destruct lines as [|l0 lines']; [|set (L := l0 :: lines') in *].
    + cbn [after fold_left length]. split; [discriminate|]. intros (m & Hm & Hf & _). assert (m = 0)%nat by (cbn in Hm; lia). subst m. cbn in Hf. rewrite Ef in Hf. discriminate.
    + assert (Hne : L <> []) by discriminate. assert (HL : (0 < length L)%nat) by (unfold L; cbn; lia). rewrite (IH k x Hne). unfold latest. split.
      * intros (m & Hm & Hf & Hn). exists m. split; [lia|]. split; [rewrite app_nth1 by lia; exact Hf|]. intros m' Hm'.
        destruct (Nat.eq_dec m' (length L)) as [->|N]; [rewrite Last; exact Ef|]. rewrite app_nth1 by lia. apply Hn. lia.
      * intros (m & Hm & Hf & Hn). assert (m <> length L) by (intros ->; rewrite Last, Ef in Hf; discriminate). exists m. split; [lia|]. rewrite app_nth1 in Hf by lia. split; [exact Hf|].
        intros m' Hm'. specialize (Hn m' ltac:(lia)). rewrite app_nth1 in Hn by lia. exact Hn.
Qed.
Definition vars (d : nat) (lines : list (list tok)) : list (option R) := map (after lines) (seq 0 d).
Lemma mapi_map_seq {B} (f : nat -> option R -> B) (g : nat -> option R) n k : mapi f k (map g (seq k n)) = map (fun j => f j (g j)) (seq k n).
Proof. revert k. induction n as [|n IH]; intros k; [reflexivity|]. cbn. f_equal. apply IH. Qed.
Lemma omapM_values d (f : nat -> option R) (g : nat -> R) : (forall k, (k < d)%nat -> f k = Some (g k)) -> omapM value_of (map f (seq 0 d)) = Ok (map g (seq 0 d)).
Proof.
  intros H. assert (G : forall n a, (forall k, (a <= k < a + n)%nat -> f k = Some (g k)) -> omapM value_of (map f (seq a n)) = Ok (map g (seq a n))).
  { induction n as [|n IH]; intros a Ha; [reflexivity|]. cbn [seq map omapM]. rewrite (Ha a) by lia. cbn [value_of of_option bind]. rewrite IH by (intros; apply Ha; lia). reflexivity. }
  apply G. intros k Hk. apply H. lia.
Qed.
Lemma omapM_values_none d (f : nat -> option R) : (exists k, (k < d)%nat /\ f k = None) -> omapM value_of (map f (seq 0 d)) = UB.
Proof.
  intros (k & Hk & E). assert (G : forall l, In k l -> omapM value_of (map f l) = UB).
  { induction l as [|a l IH]; intros Hin; [destruct Hin|]. cbn [map omapM]. destruct (f a) eqn:Ea; [|reflexivity]. cbn [value_of of_option bind]. destruct Hin as [->|Hin]; [congruence|]. rewrite IH by exact Hin. reflexivity. }
  apply G, in_seq. lia.
Qed.
(** The source number [i] according to the values. *)
Definition source_of (d : nat) (lines : list (list tok)) (i : nat) : psrc R :=
  let v k := match after (firstn (S i) lines) k with Some x => x | None => 0 end in PSrc (map v (seq 0 d)) (v d).
Definition complete (d : nat) (lines : list (list tok)) : Prop := forall k, (k <= d)%nat -> after lines k <> None.
Lemma complete_snoc d lines line : complete d lines -> complete d (lines ++ [line]).
Proof. intros H k Hk. rewrite after_snoc. unfold upd. destruct (field line k); [discriminate|]. apply H. exact Hk. Qed.
Lemma after_none line lines k : after (line :: lines) k = None -> field line k = None.
Proof.
  unfold after. cbn [fold_left]. unfold upd at 2. destruct (field line k) as [x|]; [|reflexivity]. intros H. exfalso. revert H. generalize x. induction lines as [|l lines IH]; intros y; [discriminate|].
  cbn [fold_left]. unfold upd at 2. destruct (field l k); apply IH.
Qed.
Lemma read_ok d line0 lines : (forall k, (k <= d)%nat -> field line0 k <> None) ->
  ofold read_line (line0 :: lines) (repeat None d, None, []) =
  Ok (vars d (line0 :: lines), after (line0 :: lines) d, map (source_of d (line0 :: lines)) (seq 0 (S (length lines)))).
Proof.
  intros H0. assert (C : forall ls, complete d (line0 :: ls)) by (intros ls k Hk E; apply after_none in E; exact (H0 k Hk E)).
  assert (R0 : repeat (@None R) d = vars d []). { unfold vars. change (after []) with (fun _ : nat => @None R). clear. generalize 0%nat. induction d as [|d IH]; intros a; [reflexivity|]. cbn. f_equal. apply IH. }
  assert (Step : forall ls line acc, complete d (ls ++ [line]) ->
    read_line (vars d ls, after ls d, acc) line = Ok (vars d (ls ++ [line]), after (ls ++ [line]) d, acc ++ [source_of d (ls ++ [line]) (length ls)])).
  { intros ls line acc Hc. rewrite read_line_spec. unfold vars at 1 2 3. rewrite map_length, seq_length, mapi_map_seq. cbn zeta.
    set (v := fun k => match after (ls ++ [line]) k with Some x => x | None => 0 end).
    assert (V : forall k, (k <= d)%nat -> after (ls ++ [line]) k = Some (v k)) by (intros k Hk; unfold v; specialize (Hc k Hk); destruct (after (ls ++ [line]) k); [reflexivity|contradiction]).
    rewrite (omapM_values d _ v) by (intros k Hk; rewrite <- after_snoc; apply V; lia). cbn [bind]. rewrite <- after_snoc, V by lia. cbn [value_of of_option bind]. f_equal. f_equal.
    - f_equal. unfold vars. apply map_ext. intros k. symmetry. apply after_snoc.
    - f_equal. f_equal. unfold source_of. rewrite firstn_all2 by (rewrite app_length; cbn; lia). reflexivity. }
  induction lines as [|line lines IH] using rev_ind.
  - cbn [ofold length]. rewrite R0. change (@None R) with (after [] d). rewrite (Step [] line0 [] (C [])). reflexivity.
  - change (line0 :: lines ++ [line]) with ((line0 :: lines) ++ [line]). rewrite ofold_app, IH. cbn [bind ofold]. rewrite (Step (line0 :: lines) line _ (C (lines ++ [line]))). cbn [bind]. f_equal. f_equal.
    rewrite app_length. cbn [length]. replace (S (length lines + 1)) with (S (S (length lines))) by lia. rewrite (seq_S (S (length lines))), map_app. cbn [map Nat.add]. f_equal.
    apply map_ext_in. intros i Hi. apply in_seq in Hi. unfold source_of. rewrite firstn_app. cbn [length]. replace (S i - S (length lines))%nat with 0%nat by lia. cbn [firstn]. rewrite app_nil_r. reflexivity.
Qed.
(** The first line must be complete; then every field of every source is the latest value. *)
Theorem read_sources_ok d line0 lines : (forall k, (k <= d)%nat -> field line0 k <> None) ->
  exists srcs, readSourcesFromFile d (line0 :: lines) = Ok srcs /\ length srcs = length (line0 :: lines) /\
  forall i s, nth_error srcs i = Some s -> length (ps_pos s) = d /\
    (forall k, (k < d)%nat -> latest (line0 :: lines) i k (nth k (ps_pos s) 0)) /\ latest (line0 :: lines) i d (ps_q s).
Proof.
  intros H0. unfold readSourcesFromFile. rewrite read_ok by exact H0. cbn [omap bind snd]. eexists. split; [reflexivity|]. split; [rewrite map_length, seq_length; reflexivity|].
  intros i s Hi. rewrite nth_error_map in Hi. destruct (nth_error (seq 0 (S (length lines))) i) as [i'|] eqn:Ei; [|discriminate]. injection Hi as <-.
  assert (Hlt : (i < S (length lines))%nat) by (rewrite <- (seq_length (S (length lines)) 0); apply nth_error_Some; rewrite Ei; discriminate).
  assert (i' = i) by (rewrite (nth_error_nth' _ 0%nat) in Ei by (rewrite seq_length; exact Hlt); rewrite seq_nth in Ei by exact Hlt; injection Ei as <-; reflexivity). subst i'.
  set (L := line0 :: lines).
  assert (V : forall k, (k <= d)%nat -> latest L i k (match after (firstn (S i) L) k with Some x => x | None => 0 end)).
  { intros k Hk. assert (NE : firstn (S i) L <> []) by (unfold L; cbn; discriminate). assert (LF : length (firstn (S i) L) = S i) by (rewrite firstn_length; unfold L; cbn [length]; lia).
    destruct (after (firstn (S i) L) k) as [x|] eqn:E; [|exfalso; unfold L in E; cbn [firstn] in E; apply after_none in E; exact (H0 k Hk E)].
    apply (after_latest _ k x NE) in E. rewrite LF in E. replace (S i - 1)%nat with i in E by lia. destruct E as (m & Hm & Hf & Hn).
    assert (N : forall m, (m <= i)%nat -> nth m (firstn (S i) L) [] = nth m L []).
    { intros m' Hm'. rewrite <- (firstn_skipn (S i) L) at 2. rewrite app_nth1 by lia. reflexivity. }
    exists m. split; [exact Hm|]. split; [rewrite <- N by exact Hm; exact Hf|]. intros m' Hm'. rewrite <- N by lia. apply Hn. exact Hm'. }
  unfold source_of. cbn [ps_pos ps_q]. split; [rewrite map_length, seq_length; reflexivity|]. split; [|apply V; lia].
  intros k Hk. set (v := fun k => match after (firstn (S i) L) k with Some x => x | None => 0 end). rewrite (nth_indep _ 0 (v 0%nat)) by (rewrite map_length, seq_length; exact Hk).
  change (latest L i k (nth k (map v (seq 0 d)) (v 0%nat))). rewrite (map_nth v), seq_nth by exact Hk. apply V. lia.
Qed.
Theorem read_sources_ub d line0 lines k : (k <= d)%nat -> field line0 k = None -> readSourcesFromFile d (line0 :: lines) = UB.
Proof.
  intros Hk E. unfold readSourcesFromFile. cbn [ofold]. rewrite read_line_spec. cbn zeta. rewrite repeat_length.
  assert (R0 : repeat (@None R) d = map (fun _ : nat => None) (seq 0 d)). { clear. generalize 0%nat. induction d as [|d IH]; intros a; [reflexivity|]. cbn. f_equal. apply IH. }
  rewrite R0, mapi_map_seq. destruct (Nat.eq_dec k d) as [->|N].
  - assert (G : forall l : list nat, omapM value_of (map (fun j => upd line0 j None) l) = UB \/ exists x, omapM value_of (map (fun j => upd line0 j None) l) = Ok x).
    { induction l as [|a l IH]; [right; eexists; reflexivity|]. cbn [map omapM]. destruct (upd line0 a None); cbn [value_of of_option bind]; [|left; reflexivity].
      destruct IH as [->|(x & ->)]; [left; reflexivity|right; eexists; reflexivity]. }
    destruct (G (seq 0 d)) as [->|(x & ->)]; [reflexivity|]. cbn [bind]. unfold upd. rewrite E. reflexivity.
  - rewrite omapM_values_none; [reflexivity|]. exists k. split; [lia|]. unfold upd. rewrite E. reflexivity.
Qed.
(** Complete lines: one source for each line. *)
Theorem read_complete_lines d (rows : list (list R * R * list tok)) : (forall x q r, In (x, q, r) rows -> length x = d) ->
  readSourcesFromFile d (map (fun w => map TNum (fst (fst w)) ++ TNum (snd (fst w)) :: snd w) rows) = Ok (map (fun w => PSrc (fst (fst w)) (snd (fst w))) rows).
Proof.
  intros H. set (row := fun w : list R * R * list tok => map TNum (fst (fst w)) ++ TNum (snd (fst w)) :: snd w).
  assert (FR : forall x q r k, (k < length x)%nat -> field (map TNum x ++ TNum q :: r) k = Some (nth k x 0)).
  { induction x as [|a x IH]; intros q r k Hk; [cbn in Hk; lia|]. destruct k; [reflexivity|]. cbn. apply IH. cbn in Hk; lia. }
  assert (FQ : forall x q r, field (map TNum x ++ TNum q :: r) (length x) = Some q) by (induction x as [|a x IH]; intros; [reflexivity|cbn; apply IH]).
  destruct rows as [|w0 rows']; [reflexivity|]. set (rows := w0 :: rows') in *. 
  assert (H0 : forall w, In w rows -> (forall k, (k < d)%nat -> field (row w) k = Some (nth k (fst (fst w)) 0)) /\ field (row w) d = Some (snd (fst w))).
  { intros [[x q] r] Hw. assert (L := H x q r Hw). unfold row. cbn [fst snd]. split; [intros k Hk; apply FR; lia|]. rewrite <- L. apply FQ. }
  destruct (read_sources_ok d (row w0) (map row rows')) as (srcs & E & L & V).
  { intros k Hk. destruct (H0 w0 (or_introl eq_refl)) as [A B]. destruct (Nat.eq_dec k d) as [->|N]; [rewrite B; discriminate|rewrite A by lia; discriminate]. }
  change (map row rows) with (row w0 :: map row rows'). rewrite E. f_equal.
  assert (EL : length srcs = length rows) by (rewrite L; unfold rows; cbn [length]; rewrite map_length; reflexivity).
  apply (nth_ext _ _ (PSrc [] 0) (PSrc [] 0)); [rewrite map_length; exact EL|]. intros i Hi.
  destruct (nth_error srcs i) as [s|] eqn:Es; [|apply nth_error_None in Es; lia]. rewrite (nth_error_nth _ _ _ Es). destruct (V i s Es) as (Ls & Vp & Vq).
  destruct (nth_error rows i) as [w|] eqn:Ew; [|apply nth_error_None in Ew; lia]. assert (Hw : In w rows) by (eapply nth_error_In; exact Ew).
  erewrite (nth_error_nth (map _ rows)) by (rewrite nth_error_map, Ew; reflexivity). destruct (H0 w Hw) as [A B].
  assert (EN : nth i (row w0 :: map row rows') [] = row w) by (change (row w0 :: map row rows') with (map row rows); apply nth_error_nth; rewrite nth_error_map, Ew; reflexivity).
  assert (U : forall k x y, field (row w) k = Some x -> latest (row w0 :: map row rows') i k y -> y = x).
  { intros k x y Hx (m & Hm & Hf & Hn). destruct (Nat.eq_dec m i) as [->|N]; [rewrite EN, Hx in Hf; congruence|]. specialize (Hn i ltac:(lia)). rewrite EN, Hx in Hn. discriminate. }
  destruct s as [sp sq]. cbn [ps_pos ps_q] in *. f_equal; [|exact (U d _ _ B Vq)].
  destruct w as [[x q] r]. cbn [fst snd] in *. apply (nth_ext _ _ 0 0); [rewrite (H x q r Hw); exact Ls|]. intros k Hk. rewrite Ls in Hk. exact (U k _ _ (A k Hk) (Vp k Hk)).
Qed.
(** A blank line repeats the previous source. *)
Theorem blank_line_repeats d lines srcs s : readSourcesFromFile d lines = Ok (srcs ++ [s]) -> readSourcesFromFile d (lines ++ [[]]) = Ok (srcs ++ [s; s]).
Proof.
  intros H. destruct lines as [|line0 lines]; [destruct srcs; discriminate|].
  assert (H0 : forall k, (k <= d)%nat -> field line0 k <> None) by (intros k Hk E; rewrite (read_sources_ub d line0 lines k Hk E) in H; discriminate).
  unfold readSourcesFromFile in *. rewrite read_ok in H by exact H0. cbn [app]. rewrite read_ok by exact H0. cbn [omap bind snd] in *. assert (OI : forall (a b : list (psrc R)), Ok a = Ok b -> a = b) by congruence. apply OI in H. f_equal.
  rewrite app_length. cbn [length]. replace (S (length lines + 1)) with (S (S (length lines))) by lia. rewrite (seq_S (S (length lines))), map_app. cbn [map Nat.add].
  assert (E : map (source_of d (line0 :: lines ++ [[]])) (seq 0 (S (length lines))) = srcs ++ [s]).
  { rewrite <- H. apply map_ext_in. intros i Hi. apply in_seq in Hi. unfold source_of. change (line0 :: lines ++ [[]]) with ((line0 :: lines) ++ [[]]). rewrite firstn_app. cbn [length]. replace (S i - S (length lines))%nat with 0%nat by lia. cbn [firstn]. rewrite app_nil_r. reflexivity. }
  rewrite E. replace (srcs ++ [s; s]) with ((srcs ++ [s]) ++ [s]) by (rewrite <- app_assoc; reflexivity). f_equal. f_equal.
  rewrite seq_S, map_app in H. cbn [map Nat.add] in H. apply app_inj_tail in H. destruct H as [_ <-].
  unfold source_of. change (line0 :: lines ++ [[]]) with ((line0 :: lines) ++ [[]]). rewrite !firstn_all2 by (rewrite ?app_length; cbn; lia).
  assert (A : forall k, after ((line0 :: lines) ++ [[]]) k = after (line0 :: lines) k) by (intros k; rewrite after_snoc; unfold upd; destruct k; reflexivity).
  rewrite A. f_equal. apply map_ext. intros k. rewrite A. reflexivity.
Qed.
(** The output of [sourceLocationsToFile] has no charges and cannot be read back. *)
Theorem write_read_fails d srcs : srcs <> [] -> same_dim d srcs -> readSourcesFromFile d (sourceLocationsToFile srcs) = UB.
Proof.
  intros Hne Hs. destruct srcs as [|s srcs]; [contradiction|]. cbn [sourceLocationsToFile map]. apply (read_sources_ub d _ _ d); [lia|].
  assert (L : length (ps_pos s) = d) by (apply Hs; left; reflexivity). rewrite <- L. generalize (ps_pos s). clear. induction l as [|a l IH]; [reflexivity|exact IH].
Qed.

(** ** The initial state of the integrator *)
Lemma leading_numbers_nums l : leading_numbers (map TNum l) = l.
Proof. induction l as [|a l IH]; [reflexivity|]. cbn. f_equal. exact IH. Qed.
Lemma leading_numbers_junk l r : leading_numbers (map TNum l ++ TJunk :: r) = l.
Proof. induction l as [|a l IH]; [reflexivity|]. cbn. f_equal. exact IH. Qed.
Theorem vector_file lines : exists rest, concat lines = map TNum (vectorFromFile lines) ++ rest /\ (rest = [] \/ exists r, rest = TJunk :: r).
Proof.
  unfold vectorFromFile. induction (concat lines) as [|[x|] ts (rest & E & H)]; cbn [leading_numbers map app].
  - exists []. split; [reflexivity|left; reflexivity].
  - exists rest. split; [f_equal; exact E|exact H].
  - exists (TJunk :: ts). split; [reflexivity|]. right. exists ts. reflexivity.
Qed.
Lemma combine_map_seq {A} (d0 : A) (l : list A) : combine (seq 0 (length l)) l = map (fun k => (k, nth k l d0)) (seq 0 (length l)).
Proof.
  assert (G : forall (l : list A) a, combine (seq a (length l)) l = map (fun k => (k, nth (k - a) l d0)) (seq a (length l))).
  { clear l. induction l as [|x l IH]; intros a; [reflexivity|]. cbn [length seq combine map]. f_equal; [rewrite Nat.sub_diag; reflexivity|]. rewrite IH. apply map_ext_in. intros k Hk. apply in_seq in Hk.
    replace (k - a)%nat with (S (k - S a)) by lia. reflexivity. }
  rewrite (G l 0%nat). apply map_ext. intros k. rewrite Nat.sub_0_r. reflexivity.
Qed.
Lemma vector_into lines at_ dest : (at_ + length (vectorFromFile lines) <= length dest)%nat ->
  vectorIntoArray lines at_ dest = Ok (firstn at_ dest ++ map Some (vectorFromFile lines) ++ skipn (at_ + length (vectorFromFile lines)) dest).
Proof.
  intros H. unfold vectorIntoArray. set (v := vectorFromFile lines) in *. rewrite (combine_map_seq 0 v), ofold_map. cbn [fst snd].
  rewrite (seq_writes (fun k => Some (nth k v 0))) by exact H. rewrite <- (map_map (fun k => nth k v 0) Some), map_nth_seq. reflexivity.
Qed.
Lemma vector_into_overflow lines at_ dest : (at_ <= length dest)%nat -> (length dest < at_ + length (vectorFromFile lines))%nat ->
  vectorIntoArray lines at_ dest = UB.
Proof.
  intros Ha H. unfold vectorIntoArray. set (v := vectorFromFile lines) in *. rewrite (combine_map_seq 0 v), ofold_map. cbn [fst snd].
  replace (length v) with ((length dest - at_) + S (length v - (length dest - at_) - 1))%nat by lia. rewrite seq_app, ofold_app. rewrite (seq_writes (fun k => Some (nth k v 0))) by lia. cbn [bind].
  cbn [seq ofold]. unfold wr. rewrite !app_length, firstn_length, map_length, seq_length, skipn_length. destruct (Nat.ltb_spec (at_ + (0 + (length dest - at_))) (Nat.min at_ (length dest) + (length dest - at_ + (length dest - (at_ + (length dest - at_)))))); [lia|reflexivity].
Qed.
Lemma omapM_somes l : omapM value_of (map Some l) = Ok l.
Proof. induction l as [|a l IH]; [reflexivity|]. cbn [map omapM value_of of_option bind]. rewrite IH. reflexivity. Qed.
Lemma omapM_app_none (l r : list (option R)) : omapM value_of (l ++ None :: r) = UB \/ exists k, omapM value_of l = k /\ forall x, k <> Ok x.
Proof. destruct (omapM value_of l) eqn:E; try (right; eexists; split; [reflexivity|discriminate]). left. revert a E. induction l as [|[x|] l IH]; intros a E; [reflexivity| |discriminate].
  cbn [app omapM value_of of_option bind] in *. destruct (omapM value_of l); try discriminate. cbn [bind] in E. rewrite (IH _ eq_refl). reflexivity. Qed.
Lemma omapM_short l n : (0 < n)%nat -> omapM value_of (map Some l ++ repeat None n) = UB.
Proof. intros Hn. induction l as [|a l IH]; [destruct n; [lia|reflexivity]|]. cbn [map app omapM value_of of_option bind]. rewrite IH. reflexivity. Qed.
Section Initial.
Variables (d : nat) (sources velocities mass : list (list tok)) (srcs : list (psrc R)).
Hypothesis Hread : readSourcesFromFile d sources = Ok srcs.
Notation n := (length srcs).
Notation vs := (vectorFromFile velocities).
Notation ms := (vectorFromFile mass).
Lemma read_dim : same_dim d srcs.
Proof.
  destruct sources as [|line0 lines]; [injection Hread as <-; intros s []|].
  assert (H0 : forall k, (k <= d)%nat -> field line0 k <> None) by (intros k Hk E; rewrite (read_sources_ub d line0 lines k Hk E) in Hread; discriminate).
  destruct (read_sources_ok d line0 lines H0) as (srcs' & E & _ & V). rewrite E in Hread. injection Hread as ->. intros s Hs. apply In_nth_error in Hs. destruct Hs as (i & Hi). apply (V i s Hi).
Qed.
Lemma skipn_repeat {A} (x : A) a m : skipn a (repeat x m) = repeat x (m - a).
Proof. revert m. induction a as [|a IH]; intros m; [rewrite Nat.sub_0_r; reflexivity|]. destruct m; [reflexivity|]. cbn. apply IH. Qed.
Lemma initial_arrays : sources_to_array Some d srcs (repeat None (2 * d * n)) (repeat None n) =
  Ok (map Some (concat (map (@ps_pos R) srcs)) ++ repeat None (d * n), map Some (map (@ps_q R) srcs)).
Proof.
  rewrite sources_to_array_ok; [|exact read_dim|rewrite repeat_length; nia|rewrite repeat_length; lia]. rewrite !skipn_repeat, Nat.sub_diag. cbn [repeat]. rewrite app_nil_r. replace (2 * d * n - n * d)%nat with (d * n)%nat by nia. reflexivity.
Qed.
Lemma pos_len : length (concat (map (@ps_pos R) srcs)) = (d * n)%nat.
Proof. rewrite (concat_len d); [rewrite map_length; lia|]. intros f Hf. apply in_map_iff in Hf. destruct Hf as (u & <- & Hu). apply read_dim. exact Hu. Qed.
Theorem initial_state_ok : length vs = (d * n)%nat -> length ms = n ->
  initial_state d sources velocities mass = Ok (concat (map (@ps_pos R) srcs) ++ vs, map (@ps_q R) srcs, ms).
Proof.
  intros Hv Hm. unfold initial_state. rewrite Hread. cbn [bind]. cbn zeta. rewrite initial_arrays. cbn [bind fst snd].
  assert (LP : length (map Some (concat (map (@ps_pos R) srcs))) = (d * n)%nat) by (rewrite map_length; exact pos_len).
  rewrite vector_into by (rewrite app_length, LP, repeat_length; lia). cbn [bind].
  rewrite vector_into by (rewrite repeat_length; lia). cbn [bind]. rewrite <- LP at 1. rewrite firstn_app_exact.
  rewrite (skipn_all2 (n := d * n + length vs)) by (rewrite app_length, LP, repeat_length; lia). rewrite app_nil_r, <- map_app, omapM_somes. cbn [bind]. rewrite omapM_somes. cbn [bind firstn app].
  rewrite skipn_all2 by (rewrite repeat_length; lia). rewrite app_nil_r, omapM_somes. reflexivity.
Qed.
Theorem initial_state_ub : length vs <> (d * n)%nat \/ length ms <> n -> initial_state d sources velocities mass = UB.
Proof.
  intros Hx. unfold initial_state. rewrite Hread. cbn [bind]. cbn zeta. rewrite initial_arrays. cbn [bind fst snd].
  assert (LP : length (map Some (concat (map (@ps_pos R) srcs))) = (d * n)%nat) by (rewrite map_length; exact pos_len).
  destruct (le_lt_dec (length vs) (d * n)) as [Lv|Lv].
  2:{ rewrite vector_into_overflow by (rewrite app_length, LP, repeat_length; lia). reflexivity. }
  rewrite vector_into by (rewrite app_length, LP, repeat_length; lia). cbn [bind].
  destruct (le_lt_dec (length ms) n) as [Lm|Lm].
  2:{ rewrite vector_into_overflow by (rewrite repeat_length; lia). reflexivity. }
  rewrite vector_into by (rewrite repeat_length; lia). cbn [bind].
  assert (E1 : firstn (d * n) (map Some (concat (map (@ps_pos R) srcs)) ++ repeat None (d * n)) = map Some (concat (map (@ps_pos R) srcs))) by (rewrite <- LP at 1; apply firstn_app_exact).
  assert (E2 : skipn (d * n + length vs) (map Some (concat (map (@ps_pos R) srcs)) ++ repeat None (d * n)) = repeat None (d * n - length vs)).
  { rewrite <- skipn_skipn'. rewrite <- LP at 1. rewrite skipn_app_exact. apply skipn_repeat. }
  rewrite E1, E2, app_assoc, <- map_app. destruct (Nat.eq_dec (length vs) (d * n)) as [Ev|Nv].
  - replace (d * n - length vs)%nat with 0%nat by lia. cbn [repeat]. rewrite app_nil_r, omapM_somes. cbn [bind]. rewrite omapM_somes. cbn [bind firstn app Nat.add].
    rewrite skipn_repeat, omapM_short by lia. reflexivity.
  - rewrite omapM_short by lia. reflexivity.
Qed.
End Initial.
