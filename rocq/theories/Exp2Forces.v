(** Force fields of the two-dimensional expansions are minus the gradient of their potentials. *)
From Coq Require Import Reals List Arith Lra Lia.
From Coquelicot Require Import Coquelicot.
From Verif Require Import Num Outcome Vec Tables Expansion2D CAux TableProofs Exp2Proofs Exp2Local Exp2Errors.
Import ListNotations.
Local Open Scope C_scope.

(** The curve [g] has derivative [v] at [t]. *)
Definition cdc (g : R -> C) (t : R) (v : C) : Prop :=
  is_derive (fun u : R => Re (g u)) t (Re v) /\ is_derive (fun u : R => Im (g u)) t (Im v).

Lemma cdc_const c t : cdc (fun _ => c) t (RtoC 0).
Proof. split; simpl; apply (is_derive_const (V := R_NormedModule)). Qed.
Lemma cdc_plus f g t u v : cdc f t u -> cdc g t v -> cdc (fun s => f s + g s) t (u + v).
Proof. intros [A B] [A' B']. split; simpl; apply (is_derive_plus (V := R_NormedModule)); assumption. Qed.
Lemma cdc_mult f g t u v : cdc f t u -> cdc g t v -> cdc (fun s => f s * g s) t (u * g t + f t * v).
Proof.
  intros [A B] [A' B'].
  pose proof (is_derive_mult _ _ t _ _ A A' Rmult_comm) as AA. pose proof (is_derive_mult _ _ t _ _ B B' Rmult_comm) as BB.
  pose proof (is_derive_mult _ _ t _ _ A B' Rmult_comm) as AB. pose proof (is_derive_mult _ _ t _ _ B A' Rmult_comm) as BA.
  split.
  - apply (is_derive_ext (fun s => Re (f s) * Re (g s) - Im (f s) * Im (g s))%R); [intros; reflexivity|].
    replace (Re (u * g t + f t * v)) with (minus (plus (mult (Re u) (Re (g t))) (mult (Re (f t)) (Re v))) (plus (mult (Im u) (Im (g t))) (mult (Im (f t)) (Im v)))).
    + apply (is_derive_minus (V := R_NormedModule)); assumption.
    + unfold minus, plus, opp, mult; simpl. unfold Re, Im. ring.
  - apply (is_derive_ext (fun s => Re (f s) * Im (g s) + Im (f s) * Re (g s))%R); [intros; reflexivity|].
    replace (Im (u * g t + f t * v)) with (plus (plus (mult (Re u) (Im (g t))) (mult (Re (f t)) (Im v))) (plus (mult (Im u) (Re (g t))) (mult (Im (f t)) (Re v)))).
    + apply (is_derive_plus (V := R_NormedModule)); assumption.
    + unfold minus, plus, opp, mult; simpl. unfold Re, Im. ring.
Qed.
Definition nrm2 (z : C) : R := (Re z * Re z + Im z * Im z)%R.
Lemma nrm2_pos z : z <> RtoC 0 -> (0 < nrm2 z)%R.
Proof.
  intros H. destruct z as [a b]. unfold nrm2; simpl.
  destruct (Req_EM_T a 0) as [->|Ha]; [|assert (0 < a * a)%R by nra; nra].
  destruct (Req_EM_T b 0) as [->|Hb]; [exfalso; apply H; reflexivity|]. assert (0 < b * b)%R by nra. nra.
Qed.
Lemma nrm2_deriv f t u : cdc f t u -> is_derive (fun s : R => nrm2 (f s)) t (2 * (Re (f t) * Re u + Im (f t) * Im u))%R.
Proof.
  intros [A B].
  pose proof (is_derive_mult _ _ t _ _ A A Rmult_comm) as AA. pose proof (is_derive_mult _ _ t _ _ B B Rmult_comm) as BB.
  unfold nrm2. replace (2 * (Re (f t) * Re u + Im (f t) * Im u))%R with
    (plus (plus (mult (Re u) (Re (f t))) (mult (Re (f t)) (Re u))) (plus (mult (Im u) (Im (f t))) (mult (Im (f t)) (Im u)))).
  - apply (is_derive_plus (V := R_NormedModule)); assumption.
  - unfold plus, mult; simpl. ring.
Qed.
Lemma cdc_inv f t u : cdc f t u -> f t <> RtoC 0 -> cdc (fun s => / f s) t (- u / (f t * f t)).
Proof.
  intros H Hz. pose proof (nrm2_deriv f t u H) as HN. pose proof (nrm2_pos _ Hz) as HP. destruct H as [A B].
  pose proof (is_derive_inv _ t _ HN (Rgt_not_eq _ _ HP)) as HI.
  pose proof (is_derive_mult _ _ t _ _ A HI Rmult_comm) as AI. pose proof (is_derive_mult _ _ t _ _ B HI Rmult_comm) as BI.
  split.
  - apply (is_derive_ext (fun s => Re (f s) * / nrm2 (f s))%R).
    { intros s. destruct (f s) as [a b]. unfold nrm2, Cinv, Re, Im; simpl. unfold Rdiv. do 2 f_equal. ring. }
    eapply is_derive_ext_loc; [apply filter_forall; reflexivity|].
    replace (Re (- u / (f t * f t))) with (plus (mult (Re u) (/ nrm2 (f t))%R) (mult (Re (f t)) (- (2 * (Re (f t) * Re u + Im (f t) * Im u)) / nrm2 (f t) ^ 2)%R)); [exact AI|].
    unfold plus, mult; simpl. unfold nrm2 in *. destruct (f t) as [a b], u as [c d]; unfold Re, Im, Cinv, Copp, Cdiv, Cmult in *; simpl in *.
    field. split; [|nra]. replace ((a * a - b * b) * (a * a - b * b) + (a * b + b * a) * (a * b + b * a))%R with ((a * a + b * b) * (a * a + b * b))%R by ring. nra.
  - apply (is_derive_ext (fun s => - (Im (f s) * / nrm2 (f s)))%R).
    { intros s. destruct (f s) as [a b]. unfold nrm2, Cinv, Re, Im; simpl. unfold Rdiv. rewrite <- Ropp_mult_distr_l. do 3 f_equal. ring. }
    replace (Im (- u / (f t * f t))) with (opp (plus (mult (Im u) (/ nrm2 (f t))%R) (mult (Im (f t)) (- (2 * (Re (f t) * Re u + Im (f t) * Im u)) / nrm2 (f t) ^ 2)%R))).
    + apply (is_derive_opp (V := R_NormedModule) (fun s => mult (Im (f s)) (/ nrm2 (f s))%R)). exact BI.
    + unfold plus, mult, opp; simpl. unfold nrm2 in *. destruct (f t) as [a b], u as [c d]; unfold Re, Im, Cinv, Copp, Cdiv, Cmult in *; simpl in *.
      field. split; [|nra]. replace ((a * a - b * b) * (a * a - b * b) + (a * b + b * a) * (a * b + b * a))%R with ((a * a + b * b) * (a * a + b * b))%R by ring. nra.
Qed.
Lemma ln_Cmod_nrm2 z : z <> RtoC 0 -> ln (Cmod z) = (/ 2 * ln (nrm2 z))%R.
Proof.
  intros H. pose proof (nrm2_pos z H). assert (0 < Cmod z)%R by (apply Cmod_gt_0; exact H).
  assert (E : nrm2 z = (Cmod z * Cmod z)%R).
  { unfold Cmod, nrm2, Re, Im. rewrite sqrt_sqrt by nra. simpl. ring. }
  rewrite E, ln_mult by assumption. field.
Qed.
Lemma cdc_ln f t u : cdc f t u -> f t <> RtoC 0 -> is_derive (fun s : R => ln (Cmod (f s))) t (Re (u / f t)).
Proof.
  intros H Hz. pose proof (nrm2_deriv f t u H) as HN. pose proof (nrm2_pos _ Hz) as HP.
  assert (HL : is_derive (fun s : R => / 2 * ln (nrm2 (f s)))%R t (Re (u / f t))).
  { replace (Re (u / f t)) with (/ 2 * (2 * (Re (f t) * Re u + Im (f t) * Im u) * / nrm2 (f t)))%R.
    - apply (is_derive_scal (fun s : R => ln (nrm2 (f s)))).
      apply (is_derive_comp (V := R_NormedModule) ln (fun s => nrm2 (f s))); [apply is_derive_ln; exact HP|exact HN].
    - unfold nrm2 in *. destruct (f t) as [a b], u as [c d]; unfold Re, Im, Cinv, Copp, Cdiv, Cmult in *; simpl in *. field. nra. }
  refine (is_derive_ext_loc _ _ _ _ _ HL).
  assert (Hc : continuous (fun s : R => nrm2 (f s)) t) by (apply (ex_derive_continuous (V := R_NormedModule) (fun s : R => nrm2 (f s))); eexists; exact HN).
  assert (HU : locally (nrm2 (f t)) (fun r => 0 < r)%R) by (apply (open_gt 0); exact HP).
  pose proof (Hc _ HU) as HU'. unfold filtermap in HU'. refine (filter_imp _ _ _ HU').
  intros s Hs. symmetry. apply ln_Cmod_nrm2. intros E. cbv beta in Hs. rewrite E in Hs. unfold nrm2 in Hs; simpl in Hs. lra.
Qed.
Lemma cdc_peval cs f t u : cdc f t u -> cdc (fun s => peval cs (f s)) t (dpeval cs (f t) * u).
Proof.
  intros H. induction cs as [|a r IH]; cbn [peval dpeval].
  - replace (RtoC 0 * u) with (RtoC 0) by ring. apply cdc_const.
  - replace ((peval r (f t) + f t * dpeval r (f t)) * u) with (RtoC 0 + (u * peval r (f t) + f t * (dpeval r (f t) * u))) by ring.
    apply cdc_plus; [apply cdc_const|]. apply (cdc_mult f (fun s => peval r (f s))); assumption.
Qed.
(** The two coordinate lines through a point. *)
Lemma deriv_shift (c x : R) : is_derive (fun s : R => s + - c)%R x 1%R.
Proof. auto_derive; [trivial|ring]. Qed.
Lemma deriv_const (c x : R) : is_derive (fun s : R => c) x 0%R.
Proof. apply (is_derive_const (V := R_NormedModule)). Qed.
Lemma cdc_x c x y : cdc (fun s => cplx [s; y] - c) x (RtoC 1).
Proof. split; [apply (deriv_shift (fst c))|apply (deriv_const (y + - snd c))]. Qed.
Lemma cdc_y c x y : cdc (fun s => cplx [x; s] - c) y Ci.
Proof. split; [apply (deriv_const (x + - fst c))|apply (deriv_shift (snd c))]. Qed.

(** ** Local expansions *)
Theorem le2_force_gradient e (x y : R) : se_co e <> [] ->
  is_derive (fun t : R => le2_pot e [t; y]) x (- nth 0 (le2_force e [x; y]) 0)%R /\
  is_derive (fun t : R => le2_pot e [x; t]) y (- nth 1 (le2_force e [x; y]) 0)%R.
Proof.
  intros He. rewrite le2_force_dpeval by exact He. cbn [nth]. set (z := cplx [x; y] - se_ctr e). split.
  - apply (is_derive_ext (fun t => Re (peval (se_co e) (cplx [t; y] - se_ctr e)))); [intros; symmetry; apply le2_pot_peval|].
    destruct (cdc_peval (se_co e) _ _ _ (cdc_x (se_ctr e) x y)) as [H _]. fold z in H.
    replace (- - Re (dpeval (se_co e) z))%R with (Re (dpeval (se_co e) z * RtoC 1)); [exact H|]. unfold Re; simpl; ring.
  - apply (is_derive_ext (fun t => Re (peval (se_co e) (cplx [x; t] - se_ctr e)))); [intros; symmetry; apply le2_pot_peval|].
    destruct (cdc_peval (se_co e) _ _ _ (cdc_y (se_ctr e) x y)) as [H _]. fold z in H.
    replace (- Im (dpeval (se_co e) z))%R with (Re (dpeval (se_co e) z * Ci)); [exact H|]. unfold Re, Im; simpl; ring.
Qed.

(** ** Multipole expansions *)
Lemma me2_pot_loop_peval z cs : z <> RtoC 0 -> forall ip r, me2_pot_loop z ip r cs = r + ip * peval cs (/ z).
Proof. intros Hz. induction cs as [|a cs IH]; intros ip r; cbn [me2_pot_loop peval]; [ring|]. rewrite IH. field. exact Hz. Qed.
Lemma me2_force_loop_peval z cs : z <> RtoC 0 -> forall ip r j,
  me2_force_loop z ip r j cs = r - ip * (RtoC (INR j) * peval cs (/ z) + / z * dpeval cs (/ z)).
Proof.
  intros Hz. induction cs as [|a cs IH]; intros ip r j; cbn [me2_force_loop peval dpeval]; [ring|].
  rewrite IH, S_INR, RtoC_plus. field. exact Hz.
Qed.
Definition me_res (e : se2) (z : C) : C :=
  RtoC (Re (nth 0 (se_co e) (RtoC 0))) / z
  - / z * / z * (peval (tl (se_co e)) (/ z) + / z * dpeval (tl (se_co e)) (/ z)).
Definition me_val (e : se2) (z : C) : R :=
  (Re (nth 0 (se_co e) (RtoC 0)) * ln (Cmod z) + Re (/ z * peval (tl (se_co e)) (/ z))%C)%R.
Lemma me2_pot_val e x : se_co e <> [] -> cplx x - se_ctr e <> RtoC 0 -> me2_pot e x = Ok (me_val e (cplx x - se_ctr e)).
Proof.
  intros He Hz. unfold me2_pot, me_val. set (z := cplx x - se_ctr e) in *. unfold se_get.
  destruct (se_co e) as [|a r]; [congruence|]. cbn [nth_error of_option bind nth tl].
  rewrite clog_ok, cdiv_ok by exact Hz. cbn [bind]. rewrite me2_pot_loop_peval by exact Hz. f_equal.
  rewrite Re_plus. f_equal.
  - unfold clogv, Re; simpl. ring.
  - f_equal. unfold Cdiv. ring.
Qed.
Lemma me2_force_res e x : se_co e <> [] -> cplx x - se_ctr e <> RtoC 0 ->
  me2_force e x = Ok [(- Re (me_res e (cplx x - se_ctr e)%C))%R; Im (me_res e (cplx x - se_ctr e)%C)].
Proof.
  intros He Hz. unfold me2_force, me_res. set (z := cplx x - se_ctr e) in *. unfold se_get.
  destruct (se_co e) as [|a r]; [congruence|]. cbn [nth_error of_option bind nth tl].
  rewrite !cdiv_ok by (try exact Hz; apply Cmult_neq_0; exact Hz). cbn [bind]. rewrite me2_force_loop_peval by exact Hz.
  replace (RtoC (Re a) / z - RtoC 1 / (z * z) * (RtoC (INR 1) * peval r (/ z) + / z * dpeval r (/ z)))
    with (RtoC (Re a) / z - / z * / z * (peval r (/ z) + / z * dpeval r (/ z))); [reflexivity|].
  change (INR 1) with 1%R. field. exact Hz.
Qed.
Lemma me_val_deriv e g t u : cdc g t u -> g t <> RtoC 0 -> is_derive (fun s : R => me_val e (g s)) t (Re (me_res e (g t) * u)).
Proof.
  intros H Hz. unfold me_val, me_res.
  pose proof (cdc_ln g t u H Hz) as HL. pose proof (cdc_inv g t u H Hz) as HI.
  pose proof (cdc_mult _ _ _ _ _ HI (cdc_peval (tl (se_co e)) _ _ _ HI)) as [HM _].
  set (q := Re (nth 0 (se_co e) (RtoC 0))).
  match goal with |- is_derive _ _ ?D => replace D with (plus (q * Re (u / g t))%R
    (Re (- u / (g t * g t) * peval (tl (se_co e)) (/ g t) + / g t * (dpeval (tl (se_co e)) (/ g t) * (- u / (g t * g t)))))) end.
  - apply (is_derive_plus (V := R_NormedModule) (fun s => q * ln (Cmod (g s)))%R); [|exact HM].
    apply (is_derive_scal (fun s => ln (Cmod (g s)))). exact HL.
  - change (plus ?a ?b) with (a + b)%R. replace (q * Re (u / g t))%R with (Re (RtoC q * (u / g t))) by (unfold Re; simpl; ring).
    rewrite <- Re_plus. f_equal. field. exact Hz.
Qed.
Theorem me2_force_gradient e (x y : R) : se_co e <> [] -> cplx [x; y] <> se_ctr e ->
  exists (U : R -> R -> R) F, me2_force e [x; y] = Ok F /\ length F = 2%nat /\
    (forall x' y', cplx [x'; y'] <> se_ctr e -> me2_pot e [x'; y'] = Ok (U x' y')) /\
    is_derive (fun t : R => U t y) x (- nth 0 F 0)%R /\ is_derive (fun t : R => U x t) y (- nth 1 F 0)%R.
Proof.
  intros He Hz.
  assert (HZ : forall w : C, w <> se_ctr e -> w - se_ctr e <> RtoC 0).
  { intros w Hw E. apply Hw. replace w with (w - se_ctr e + se_ctr e) by ring. rewrite E. ring. }
  exists (fun x' y' => me_val e (cplx [x'; y'] - se_ctr e)), [(- Re (me_res e (cplx [x; y] - se_ctr e)%C))%R; Im (me_res e (cplx [x; y] - se_ctr e)%C)].
  split; [apply me2_force_res; [exact He|apply HZ; exact Hz]|]. split; [reflexivity|].
  split; [intros x' y' Hz'; apply me2_pot_val; [exact He|apply HZ; exact Hz']|]. cbn [nth].
  pose proof (me_val_deriv e _ _ _ (cdc_x (se_ctr e) x y) (HZ _ Hz)) as Hx.
  pose proof (me_val_deriv e _ _ _ (cdc_y (se_ctr e) x y) (HZ _ Hz)) as Hy.
  set (r := me_res e (cplx [x; y] - se_ctr e)) in *. split.
  - replace (- - Re r)%R with (Re (r * RtoC 1)) by (unfold Re; simpl; ring). exact Hx.
  - replace (- Im r)%R with (Re (r * Ci)) by (unfold Re, Im; simpl; ring). exact Hy.
Qed.
