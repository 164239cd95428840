(** The trajectory file of the integrator. *)
From Coq Require Import List Bool Arith Reals Lia Lra.
From Verif Require Import Num Outcome Vec Fields Interfaces FileProofs Integrator.
Import ListNotations.
Local Open Scope R_scope.

(** [history apply (driver, t, y) ts states]: successive calls of the solver with the targets [ts] all succeed and lead through [states]. *)
Inductive history {D} (apply : D -> R -> R -> list R -> outcome (D * R * list R * bool)) : D * R * list R -> list R -> list (D * R * list R) -> Prop :=
| H_start st : history apply st [] []
| H_step driver t y ti st ts states : apply driver t ti y = Ok (st, true) -> history apply st ts states ->
    history apply (driver, t, y) (ti :: ts) (st :: states).

Lemma history_cons {D} apply driver t y ti ts (states : list (D * R * list R)) : history apply (driver, t, y) (ti :: ts) states ->
  exists st rest, states = st :: rest /\ apply driver t ti y = Ok (st, true) /\ history apply st ts rest.
Proof. intros H. inversion H; subst. eexists _, _. split; [reflexivity|]. split; assumption. Qed.

(** The times at which states are saved: 0.1, 0.2, ..., 10. *)
Definition saves : list R := map (fun i => INR i / 10) (seq 1 100).

Section Proofs.
Variables (D : Type) (apply : D -> R -> R -> list R -> outcome (D * R * list R * bool)).

Definition record (r : R * (D * R * list R)) : list (list tok) := [[TNum (fst r)]; map TNum (snd (snd r))].

Lemma read_all (y : list R) : omapM (rd y) (seq 0 (length y)) = Ok y.
Proof.
  assert (G : forall pre post : list R, omapM (rd (pre ++ post)) (seq (length pre) (length post)) = Ok post).
  { intros pre post; revert pre; induction post as [|a post IH]; intros pre; [reflexivity|]. cbn [length seq omapM].
    unfold rd at 1. rewrite nth_error_app2, Nat.sub_diag by lia. cbn [nth_error of_option bind].
    replace (pre ++ a :: post) with ((pre ++ [a]) ++ post) by (rewrite <- app_assoc; reflexivity).
    replace (S (length pre)) with (length (pre ++ [a])) by (rewrite app_length; simpl; lia). rewrite IH. reflexivity. }
  exact (G [] y).
Qed.

Variable len : nat.
(** The solver does not change the length of the array (it is an array). *)
Hypothesis Hlen : forall driver t ti y driver' t' y' b, length y = len -> apply driver t ti y = Ok (driver', t', y', b) -> length y' = len.

Lemma loop_history todo : forall driver t y file out, length y = len -> save_loop D apply len todo driver t y file = Ok out ->
  exists done rest states, todo = done ++ rest /\ history apply (driver, t, y) (map save_time done) states /\
    out = file ++ concat (map record (combine (map save_time done) states)) /\
    match rest with
    | [] => True
    | i :: _ => let '(driver', t', y') := last states (driver, t, y) in exists st, apply driver' t' (save_time i) y' = Ok (st, false)
    end.
Proof.
  induction todo as [|i todo IH]; intros driver t y file out L H; cbn [save_loop] in H.
  - injection H as <-. exists [], [], []. split; [reflexivity|]. split; [constructor|]. split; [cbn; rewrite app_nil_r; reflexivity|exact I].
  - destruct (apply driver t (save_time i) y) as [[[[driver' t'] y'] b]| | | | |] eqn:E; cbn [bind] in H; try discriminate.
    assert (L' := Hlen _ _ _ _ _ _ _ _ L E). destruct b.
    + rewrite <- L' in H at 1. rewrite read_all in H. cbn [bind] in H.
      destruct (IH _ _ _ _ _ L' H) as (done & rest & states & E1 & H1 & E2 & R).
      exists (i :: done), rest, ((driver', t', y') :: states). split; [rewrite E1; reflexivity|].
      split; [cbn [map]; econstructor; [exact E|exact H1]|]. split.
      * rewrite E2, <- app_assoc. cbn [map combine concat]. unfold record at 1. cbn. reflexivity.
      * destruct rest as [|j rest]; [exact I|]. destruct states as [|st states]; [exact R|].
        replace (last ((driver', t', y') :: st :: states) (driver, t, y)) with (last (st :: states) (driver', t', y')); [exact R|].
        clear. revert st. generalize (driver', t', y') at 1. generalize (driver, t, y). induction states as [|a states IHs]; intros p q st; [reflexivity|].
        cbn [last]. cbn [last] in IHs. exact (IHs p q a).
    + injection H as <-. exists [], (i :: todo), []. split; [reflexivity|]. split; [constructor|]. split; [cbn; rewrite app_nil_r; reflexivity|].
      cbn. eexists. exact E.
Qed.

Lemma loop_complete todo : forall driver t y file states, length y = len -> history apply (driver, t, y) (map save_time todo) states ->
  save_loop D apply len todo driver t y file = Ok (file ++ concat (map record (combine (map save_time todo) states))).
Proof.
  induction todo as [|i todo IH]; intros driver t y file states L H; cbn [map] in H.
  - cbn. rewrite app_nil_r. reflexivity.
  - apply history_cons in H. destruct H as ([[driver' t'] y'] & states' & -> & E & H'). cbn [save_loop]. rewrite E. cbn [bind].
    assert (L' := Hlen _ _ _ _ _ _ _ _ L E). rewrite <- L' at 1. rewrite read_all. cbn [bind]. rewrite (IH _ _ _ _ states' L' H').
    rewrite <- app_assoc. cbn [map combine concat]. unfold record at 2. cbn. reflexivity.
Qed.
End Proofs.

Lemma save_time_eq i : save_time i = INR i / 10.
Proof.
  unfold save_time, t_end, n_saves. replace (INR 100) with 100 by (rewrite INR_IZR_INZ; reflexivity). field.
Qed.
Lemma save_times l : map save_time l = map (fun i => INR i / 10) l.
Proof. apply map_ext, save_time_eq. Qed.
Lemma prefix_firstn {A} (l a b : list A) : l = a ++ b -> a = firstn (length a) l.
Proof. intros ->. rewrite firstn_app, Nat.sub_diag, firstn_all. cbn. rewrite app_nil_r. reflexivity. Qed.

(** What a run writes. *)
Theorem trajectory_written D alloc apply fs fv fm srcs file :
  readSourcesFromFile 2 fs = Ok srcs -> length (vectorFromFile fv) = (2 * length srcs)%nat -> length (vectorFromFile fm) = length srcs ->
  (forall driver t ti y driver' t' y' b, length y = (4 * length srcs)%nat -> apply driver t ti y = Ok (driver', t', y', b) -> length y' = length y) ->
  integrator_main D alloc apply (Some fs) (Some fv) (Some fm) true = Ok file ->
  let start := (alloc (map (@ps_q R) srcs) (vectorFromFile fm), 0, concat (map (@ps_pos R) srcs) ++ vectorFromFile fv) in
  exists k states, (k <= 100)%nat /\ history apply start (firstn k saves) states /\
    file = concat (map (fun r => [[TNum (fst r)]; map TNum (snd (snd r))]) (combine (firstn k saves) states)) /\
    ((k < 100)%nat -> let '(driver, t, y) := last states start in exists st, apply driver t (nth k saves 0) y = Ok (st, false)).
Proof.
  intros HS HV HM HL H start. cbn [integrator_main] in H.
  assert (SD : length (concat (map (@ps_pos R) srcs)) = (2 * length srcs)%nat).
  { assert (Q := read_dim 2 fs srcs HS). clear - Q. induction srcs as [|s srcs IH]; [reflexivity|]. cbn [map concat length]. rewrite app_length, (Q s (or_introl eq_refl)), IH.
    - lia. - intros x Hx. apply Q. right; exact Hx. }
  assert (L0 : length (concat (map (@ps_pos R) srcs) ++ vectorFromFile fv) = (4 * length srcs)%nat) by (rewrite app_length; lia).
  rewrite (initial_state_ok 2 fs fv fm srcs HS HV HM) in H. cbn [bind] in H. rewrite map_length in H.
  change (2 * 2 * length srcs)%nat with (4 * length srcs)%nat in H.
  destruct (save_loop D apply (4 * length srcs) (seq 1 n_saves) (alloc (map (@ps_q R) srcs) (vectorFromFile fm)) 0
    (concat (map (@ps_pos R) srcs) ++ vectorFromFile fv) []) as [out| | | | |] eqn:E; cbn [bind] in H; try discriminate. injection H as <-.
  destruct (loop_history D apply (4 * length srcs) (fun a b c y a' b' y' d Hy Ha => eq_trans (HL a b c y a' b' y' d Hy Ha) Hy) _ _ _ _ _ _ L0 E)
    as (done & rest & states & E1 & H1 & E2 & R).
  assert (LD : length (done ++ rest) = 100%nat) by (rewrite <- E1; apply seq_length). rewrite app_length in LD.
  assert (P := prefix_firstn _ _ _ E1).
  assert (F : map save_time done = firstn (length done) saves).
  { rewrite save_times. unfold saves. rewrite firstn_map. f_equal. exact P. }
  exists (length done), states. split; [lia|]. rewrite F in H1, E2. split; [exact H1|]. split; [exact E2|].
  intros K. destruct rest as [|i rest]; [cbn in LD; lia|]. fold start in R. destruct (last states start) as [[driver t] y].
  destruct R as [st R]. exists st. rewrite <- R. f_equal.
  assert (G : nth (length done) (map save_time (seq 1 n_saves)) 0 = save_time i).
  { rewrite E1, map_app, app_nth2; rewrite map_length; [|lia]. rewrite Nat.sub_diag. reflexivity. }
  rewrite <- G. unfold saves. rewrite save_times. reflexivity.
Qed.
(** A solver that never fails: all hundred states are saved. *)
Theorem trajectory_complete D alloc apply fs fv fm srcs states :
  readSourcesFromFile 2 fs = Ok srcs -> length (vectorFromFile fv) = (2 * length srcs)%nat -> length (vectorFromFile fm) = length srcs ->
  (forall driver t ti y driver' t' y' b, length y = (4 * length srcs)%nat -> apply driver t ti y = Ok (driver', t', y', b) -> length y' = length y) ->
  history apply (alloc (map (@ps_q R) srcs) (vectorFromFile fm), 0, concat (map (@ps_pos R) srcs) ++ vectorFromFile fv) saves states ->
  integrator_main D alloc apply (Some fs) (Some fv) (Some fm) true =
    Ok (concat (map (fun r => [[TNum (fst r)]; map TNum (snd (snd r))]) (combine saves states))).
Proof.
  intros HS HV HM HL H. cbn [integrator_main].
  assert (SD : length (concat (map (@ps_pos R) srcs)) = (2 * length srcs)%nat).
  { assert (Q := read_dim 2 fs srcs HS). clear - Q. induction srcs as [|s srcs IH]; [reflexivity|]. cbn [map concat length]. rewrite app_length, (Q s (or_introl eq_refl)), IH.
    - lia. - intros x Hx. apply Q. right; exact Hx. }
  assert (L0 : length (concat (map (@ps_pos R) srcs) ++ vectorFromFile fv) = (4 * length srcs)%nat) by (rewrite app_length; lia).
  rewrite (initial_state_ok 2 fs fv fm srcs HS HV HM). cbn [bind]. rewrite map_length. change (2 * 2 * length srcs)%nat with (4 * length srcs)%nat.
  assert (SV : saves = map save_time (seq 1 n_saves)) by (rewrite save_times; reflexivity). rewrite SV in H |- *.
  rewrite (loop_complete D apply (4 * length srcs) (fun a b c y a' b' y' d Hy Ha => eq_trans (HL a b c y a' b' y' d Hy Ha) Hy) _ _ _ _ [] states L0 H).
  reflexivity.
Qed.
(** Missing input: an exception; no output file: nothing is written, and that is not reported. *)
Theorem trajectory_missing D alloc apply fs fv fm opened : fs = None \/ fv = None \/ fm = None -> integrator_main D alloc apply fs fv fm opened = Throw.
Proof. destruct fs, fv, fm; try reflexivity. intros [H|[H|H]]; discriminate. Qed.
Theorem trajectory_lost D alloc apply fs fv fm file : integrator_main D alloc apply fs fv fm true = Ok file -> integrator_main D alloc apply fs fv fm false = Ok [].
Proof.
  destruct fs as [fs|]; [|discriminate]. destruct fv as [fv|]; [|discriminate]. destruct fm as [fm|]; [|discriminate]. cbn [integrator_main].
  destruct (initial_state 2 fs fv fm) as [[[y q] m]| | | | |]; cbn [bind]; try discriminate.
  destruct (save_loop _ _ _ _ _ _ _ _); cbn [bind]; try discriminate. reflexivity.
Qed.

(** *** An instance: free motion of one particle; the solver gives up after time 5 in the second one *)
Definition free (_ : unit) (t ti : R) (y : list R) : outcome (unit * R * list R * bool) :=
  match y with
  | [a; b; v; w] => Ok (tt, ti, [a + (ti - t) * v; b + (ti - t) * w; v; w], true)
  | _ => Ok (tt, t, y, false)
  end.
Definition free5 (u : unit) (t ti : R) (y : list R) : outcome (unit * R * list R * bool) :=
  if Rle_dec ti 5 then free u t ti y else Ok (tt, t, y, false).
Notation one_source := [[TNum 1; TNum 2; TNum 3]].
Notation one_velocity := [[TNum 4; TNum 5]].
Notation one_mass := [[TNum 6]].
Lemma free_keeps driver t ti y driver' t' y' b : free driver t ti y = Ok (driver', t', y', b) -> length y' = length y.
Proof. destruct y as [|a [|b0 [|v [|w [|z y]]]]]; intros H; injection H as <- <- <- <-; reflexivity. Qed.
Lemma free5_keeps driver t ti y driver' t' y' b : free5 driver t ti y = Ok (driver', t', y', b) -> length y' = length y.
Proof. unfold free5. destruct (Rle_dec ti 5); [apply free_keeps|]. intros H. injection H as <- <- <- <-. reflexivity. Qed.
Lemma free_history ts : forall t a b v w, exists states, history free (tt, t, [a; b; v; w]) ts states /\
  map (fun s => snd s) states = map (fun ti => [a + (ti - t) * v; b + (ti - t) * w; v; w]) ts.
Proof.
  induction ts as [|ti ts IH]; intros t a b v w; [exists []; split; [constructor|reflexivity]|].
  destruct (IH ti (a + (ti - t) * v) (b + (ti - t) * w) v w) as (states & H & E). eexists (_ :: states). split; [econstructor; [reflexivity|exact H]|].
  cbn [map]. f_equal. rewrite E. apply map_ext. intros x. f_equal; [ring|]. f_equal. ring.
Qed.
Lemma trajectory_case : readSourcesFromFile 2 one_source = Ok [PSrc [1; 2] 3] /\ length (vectorFromFile one_velocity) = 2%nat /\ length (vectorFromFile one_mass) = 1%nat /\
  (forall driver t ti y driver' t' y' b, free driver t ti y = Ok (driver', t', y', b) -> length y' = length y) /\
  integrator_main unit (fun _ _ => tt) free (Some one_source) (Some one_velocity) (Some one_mass) true =
    Ok (concat (map (fun ti => [[TNum ti]; map TNum [1 + ti * 4; 2 + ti * 5; 4; 5]]) saves)).
Proof.
  split; [reflexivity|]. split; [reflexivity|]. split; [reflexivity|]. split; [exact free_keeps|].
  destruct (free_history saves 0 1 2 4 5) as (states & H & E).
  rewrite (trajectory_complete unit (fun _ _ => tt) free one_source one_velocity one_mass [PSrc [1; 2] 3] states eq_refl eq_refl eq_refl
    (fun a b c y a' b' y' d _ Ha => free_keeps a b c y a' b' y' d Ha) H).
  f_equal. f_equal. clear H. revert states E. generalize saves. induction l as [|ti ts IH]; intros [|st states] E; try discriminate; [reflexivity|].
  cbn [map] in E. injection E as E1 E2. cbn [combine map fst snd]. rewrite E1. f_equal; [|exact (IH states E2)].
  rewrite Rminus_0_r. reflexivity.
Qed.
Lemma free5_stops n : forall i t a b v w file, (i <= 50)%nat -> exists y,
  save_loop unit free5 4 (seq i n) tt t [a; b; v; w] file = Ok y /\ length y = (length file + 2 * Nat.min n (51 - i))%nat.
Proof.
  induction n as [|n IH]; intros i t a b v w file Hi; cbn [seq save_loop].
  - eexists; split; [reflexivity|]. lia.
  - unfold free5 at 1. rewrite save_time_eq.
    destruct (Rle_dec (INR i / 10) 5) as [L|L].
    2:{ exfalso. apply L. apply le_INR in Hi. replace (INR 50) with 50 in Hi by (rewrite INR_IZR_INZ; reflexivity). lra. }
    cbn [free bind]. change (omapM (rd ?y) (seq 0 4)) with (omapM (rd y) (seq 0 (length y))). rewrite read_all. cbn [bind].
    destruct (Nat.eq_dec i 50) as [->|N].
    + destruct n as [|n]; cbn [seq save_loop].
      * eexists; split; [reflexivity|]. rewrite app_length. cbn. lia.
      * unfold free5 at 1. rewrite save_time_eq.
        destruct (Rle_dec (INR 51 / 10) 5) as [L'|_]; [exfalso; replace (INR 51) with 51 in L' by (rewrite INR_IZR_INZ; reflexivity); lra|].
        cbn [bind]. eexists; split; [reflexivity|]. rewrite app_length. cbn. lia.
    + destruct (IH (S i) (INR i / 10) (a + (INR i / 10 - t) * v) (b + (INR i / 10 - t) * w) v w
        (file ++ [[TNum (INR i / 10)]; map TNum [a + (INR i / 10 - t) * v; b + (INR i / 10 - t) * w; v; w]]) ltac:(lia)) as (y & Y1 & Y2).
      exists y. split; [exact Y1|]. rewrite Y2, app_length. cbn [length]. lia.
Qed.
Lemma trajectory_stops_case : (forall driver t ti y driver' t' y' b, free5 driver t ti y = Ok (driver', t', y', b) -> length y' = length y) /\
  exists file, integrator_main unit (fun _ _ => tt) free5 (Some one_source) (Some one_velocity) (Some one_mass) true = Ok file /\ length file = 100%nat.
Proof.
  split; [exact free5_keeps|]. cbn [integrator_main].
  rewrite (initial_state_ok 2 one_source one_velocity one_mass [PSrc [1; 2] 3] eq_refl eq_refl eq_refl).
  cbn [bind map ps_pos ps_q concat app length Nat.mul Nat.add].
  destruct (free5_stops n_saves 1 0 1 2 4 5 [] ltac:(lia)) as (y & Y1 & Y2).
  change (vectorFromFile one_velocity) with [4; 5]. cbn [app]. rewrite Y1. cbn [bind]. exists y. split; [reflexivity|]. rewrite Y2. reflexivity.
Qed.
