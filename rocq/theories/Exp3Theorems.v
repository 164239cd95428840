(** Final forms of the theorems on the three-dimensional tables and expansions. *)
From Coq Require Import Reals List Arith ZArith Lia Lra.
From Coquelicot Require Import Complex.
From Verif Require Import Num Outcome Vec VecProofs Tables Tables3D Expansion3D CAux Table3DProofs FieldSpec Fields FieldProofs
  Kernel3 Harmonics3D Exp3Loops Exp3Proofs Exp3Errors.
Import ListNotations.
Local Open Scope R_scope.

(** *** The static tables after expansions of the given orders have been constructed, oldest first *)
Definition tables3_after (orders : list nat) : outcome tb3 := ofold (fun tb o => tb3_refresh tb (Z.of_nat o)) orders tb3_init.
Definition max_order3 (orders : list nat) : nat := fold_right Nat.max 0%nat orders.

Lemma tables3_from orders tb : tb3_ok tb -> (at_max (t_alm tb) <= 42)%Z ->
  (forall o, In o orders -> (o <= 42)%nat) ->
  exists tb', ofold (fun tb o => tb3_refresh tb (Z.of_nat o)) orders tb = Ok tb' /\ tb3_ok tb' /\
    at_max (t_alm tb') = Z.max (at_max (t_alm tb)) (Z.of_nat (max_order3 orders)).
Proof.
  revert tb. induction orders as [|o orders IH]; intros tb Hok Hm Ho.
  - exists tb. split; [reflexivity|]. split; [exact Hok|]. cbn [max_order3 fold_right]. destruct Hok as ((H0 & _) & _). lia.
  - cbn [ofold]. assert (O := Ho o (or_introl eq_refl)). destruct (tb3_refresh_ok tb (Z.of_nat o) Hok ltac:(lia)) as (tb1 & E & Ok1 & M1). rewrite E. cbn [bind].
    destruct (IH tb1 Ok1 ltac:(lia) (fun q Hq => Ho q (or_intror Hq))) as (tb2 & E2 & Ok2 & M2). exists tb2. split; [exact E2|]. split; [exact Ok2|].
    rewrite M2, M1. unfold max_order3. cbn [fold_right]. lia.
Qed.
Lemma max_order3_le orders n : (forall o, In o orders -> (o <= n)%nat) -> (max_order3 orders <= n)%nat.
Proof. induction orders as [|o os IH]; intros H; [cbn; lia|]. unfold max_order3. cbn [fold_right]. fold (max_order3 os). assert (H1 := H o (or_introl eq_refl)). assert (H2 := IH (fun q Hq => H q (or_intror Hq))). lia. Qed.
(** The tables can be grown to the given orders iff all of them are at most 42. *)
Theorem tables3_iff orders : (forall o, In o orders -> (o <= 42)%nat) <-> exists tb, tables3_after orders = Ok tb.
Proof.
  split.
  - intros H. destruct (tables3_from orders tb3_init tb3_init_ok ltac:(cbn; lia) H) as (tb & E & _). exists tb. exact E.
  - intros (tb & H). unfold tables3_after in H.
    assert (G : forall os t, tb3_ok t -> (at_max (t_alm t) <= 42)%Z -> ofold (fun tb o => tb3_refresh tb (Z.of_nat o)) os t = Ok tb -> forall o, In o os -> (o <= 42)%nat).
    { induction os as [|o os IH]; intros t Hok Hm HO q []; cbn [ofold] in HO.
      - subst q. destruct (le_gt_dec o 42) as [|G]; [assumption|]. rewrite tb3_refresh_abort in HO by (try assumption; lia). discriminate.
      - destruct (le_gt_dec o 42) as [G|G]; [|rewrite tb3_refresh_abort in HO by (try assumption; lia); discriminate].
        destruct (tb3_refresh_ok t (Z.of_nat o) Hok ltac:(lia)) as (t1 & E & Ok1 & M1). rewrite E in HO. cbn [bind] in HO.
        apply (IH t1 Ok1 ltac:(lia) HO q H0). }
    exact (G orders tb3_init tb3_init_ok ltac:(cbn; lia) H).
Qed.
Lemma tables3_spec orders tb : tables3_after orders = Ok tb -> tb3_ok tb /\ at_max (t_alm tb) = Z.of_nat (max_order3 orders) /\ (at_max (t_alm tb) <= 42)%Z.
Proof.
  intros H. assert (HO := proj2 (tables3_iff orders) (ex_intro _ tb H)).
  destruct (tables3_from orders tb3_init tb3_init_ok ltac:(cbn; lia) HO) as (tb' & E & Ok' & M). unfold tables3_after in H. rewrite H in E. injection E as <-.
  assert (L := max_order3_le orders 42 HO). cbn [tb3_init t_alm at_max] in M. split; [exact Ok'|]. lia.
Qed.
Lemma tables3_grown orders tb p : tables3_after orders = Ok tb -> (1 <= p <= 42)%nat ->
  exists tb', tb3_refresh tb (Z.of_nat p) = Ok tb' /\ tb3_for tb' (Z.of_nat p) /\ tables3_after (orders ++ [p]) = Ok tb'.
Proof.
  intros H Hp. destruct (tables3_spec orders tb H) as (Hok & _ & Hm).
  destruct (tb3_refresh_ok tb (Z.of_nat p) Hok ltac:(lia)) as (tb1 & E & Ok1 & M1). exists tb1. split; [exact E|]. split; [split; [exact Ok1|lia]|].
  unfold tables3_after in *. assert (A : forall os t, ofold (fun tb o => tb3_refresh tb (Z.of_nat o)) os t = Ok tb -> ofold (fun tb o => tb3_refresh tb (Z.of_nat o)) (os ++ [p]) t = Ok tb1).
  { induction os as [|o os IH]; intros t Ht; cbn [ofold app] in *; [injection Ht as ->; rewrite E; reflexivity|].
    destruct (tb3_refresh t (Z.of_nat o)); try discriminate. cbn [bind] in *. apply IH. exact Ht. }
  apply A. exact H.
Qed.

Lemma tables3_for orders tb p : tables3_after orders = Ok tb -> (1 <= p <= max_order3 orders)%nat -> tb3_for tb (Z.of_nat p).
Proof. intros H Hp. destruct (tables3_spec orders tb H) as (Hok & Hm & _). split; [exact Hok|]. lia. Qed.

(** *** Lookups *)
Theorem alm_lookup orders tb l m : tables3_after orders = Ok tb -> (1 <= max_order3 orders)%nat -> (Z.abs m <= l <= 2 * Z.of_nat (max_order3 orders))%Z ->
  alm_get (t_alm tb) l m = Ok ((-1) ^ Z.to_nat l / sqrt (INR (fact (Z.to_nat (l - m))) * INR (fact (Z.to_nat (l + m))))).
Proof.
  intros H H1 Hl. destruct (tables3_spec orders tb H) as ((Ha & _) & Hm & _). destruct Ha as (_ & _ & Ha).
  destruct (Ha ltac:(lia)) as [_ G]. rewrite G by lia. unfold A_val, a_val. do 3 f_equal.
  assert (E : forall n, (-1) ^ n = if Z.odd (Z.of_nat n) then -1 else 1).
  { induction n as [|n IH]; [reflexivity|]. rewrite Nat2Z.inj_succ, Z.odd_succ, <- Z.negb_odd. cbn [pow]. rewrite IH. destruct (Z.odd (Z.of_nat n)); cbn; lra. }
  rewrite E, Z2Nat.id by lia. reflexivity.
Qed.
Theorem alm_slots l m l' m' : (Z.abs m <= l)%Z -> (Z.abs m' <= l')%Z -> sh_index l m = sh_index l' m' -> l = l' /\ m = m'.
Proof. apply sh_index_inj. Qed.

(** Integer powers of the imaginary unit. *)
Definition i_pow (e : Z) : C := if (0 <=? e)%Z then Cpow Ci (Z.to_nat e) else (/ Cpow Ci (Z.to_nat (- e)))%C.
Lemma ipow_nat n : ipow (Z.of_nat n) = Cpow Ci n.
Proof. induction n as [|n IH]; [reflexivity|]. rewrite Nat2Z.inj_succ, <- Z.add_1_r, ipow_succ, IH. reflexivity. Qed.
Lemma i_pow_ipow e : i_pow e = ipow e.
Proof.
  unfold i_pow. destruct (Z.leb_spec 0 e) as [H|H].
  - rewrite <- ipow_nat, Z2Nat.id by lia. reflexivity.
  - rewrite <- ipow_nat, Z2Nat.id by lia.
    assert (E : (ipow (- e) * ipow e)%C = RtoC 1) by (rewrite <- ipow_add; replace (- e + e)%Z with 0%Z by lia; reflexivity).
    assert (N : ipow (- e) <> RtoC 0). { intros Q. rewrite Q, Cmult_0_l in E. apply RtoC_inj in E. lra. }
    transitivity (/ ipow (- e) * (ipow (- e) * ipow e))%C; [rewrite E; ring|]. rewrite Cmult_assoc, Cinv_l by exact N. ring.
Qed.
Theorem sign_functions k m :
  (exists s, sign_fun1 k m = Ok s /\ RtoC s = i_pow (Z.abs k - Z.abs m - Z.abs (k - m))) /\
  (exists s, sign_fun2 k m = Ok s /\ RtoC s = i_pow (Z.abs (k - m) - Z.abs k - Z.abs m)) /\
  (exists s, sign_fun3 k m = Ok s /\ RtoC s = i_pow (Z.abs m - Z.abs (m - k) - Z.abs k)).
Proof.
  rewrite !i_pow_ipow. split; [|split].
  - exact (sign_ok (exp1 k m) (exp1_even k m)).
  - exact (sign_ok (exp2 k m) (exp2_even k m)).
  - exact (sign_ok (exp3 k m) (exp3_even k m)).
Qed.
Theorem sign_lookup orders tb k m : tables3_after orders = Ok tb -> (1 <= max_order3 orders)%nat ->
  (Z.abs k <= Z.of_nat (max_order3 orders))%Z -> (Z.abs m <= Z.of_nat (max_order3 orders))%Z ->
  st_get (t_s1 tb) k m = sign_fun1 k m /\ st_get (t_s2 tb) k m = sign_fun2 k m /\ st_get (t_s3 tb) k m = sign_fun3 k m.
Proof.
  intros H H1 Hk Hm. destruct (tables3_spec orders tb H) as ((Ha & S1 & S2 & S3 & E1 & E2 & E3) & M & _).
  destruct S1 as (_ & _ & S1), S2 as (_ & _ & S2), S3 as (_ & _ & S3).
  split; [|split]; [apply S1|apply S2|apply S3]; lia.
Qed.
(** With expansions of order 0 only, nothing can be looked up. *)
Theorem lookup_order_zero orders tb l m : tables3_after orders = Ok tb -> max_order3 orders = 0%nat ->
  alm_get (t_alm tb) l m = UB /\ st_get (t_s1 tb) l m = UB /\ st_get (t_s2 tb) l m = UB /\ st_get (t_s3 tb) l m = UB.
Proof.
  intros H H0. destruct (tables3_spec orders tb H) as ((Ha & S1 & S2 & S3 & E1 & E2 & E3) & M & _).
  destruct Ha as (_ & Ha & _), S1 as (_ & S1 & _), S2 as (_ & S2 & _), S3 as (_ & S3 & _).
  unfold alm_get, st_get. rewrite Ha, S1, S2, S3 by lia. rewrite !zget_nil. auto.
Qed.

(** *** Expansions of admissible shape: the only kind the constructors make *)
Definition wf3 (p : nat) (e : se3) : Prop := s3_ord e = Z.of_nat p /\ length (s3_ctr e) = 3%nat /\ length (s3_co e) = (S p * S p)%nat.
Lemma wf3_form p e : wf3 p e -> exists f, e = s3_of (Z.of_nat p) (s3_ctr e) f.
Proof.
  intros (Ho & Hc & Hl). exists (fun n m => nth (Z.to_nat (sh_index n m)) (s3_co e) (RtoC 0)). unfold s3_of. destruct e as [o c co]; cbn [s3_ord s3_ctr s3_co] in *. subst o. f_equal.
  apply co_unique; [lia|rewrite Hl; lia|]. intros n m Hm Hn. apply zget_nth. assert (B := sh_index_bound n m (Z.of_nat p) Hm Hn). rewrite Hl. lia.
Qed.
Lemma s3_of_wf p c f : length c = 3%nat -> wf3 p (s3_of (Z.of_nat p) c f).
Proof. intros Hc. split; [reflexivity|]. split; [exact Hc|]. cbn [s3_co s3_of]. rewrite co_of_length by lia. lia. Qed.

(** Every table lookup of every operation on expansions of order [p] is in bounds: the operations succeed. *)
Theorem operations_succeed orders tb p c e x : tables3_after orders = Ok tb -> (1 <= p <= max_order3 orders)%nat -> length c = 3%nat -> wf3 p e ->
  (exists e', me3_merge tb c [e] = Ok e' /\ wf3 p e') /\
  (exists e', le3_translate tb c e = Ok e' /\ wf3 p e') /\
  (s3_ctr e <> c -> exists e', le3_convert tb c e = Ok e' /\ wf3 p e') /\
  (length x = 3%nat -> exists v, le3_pot e x = Ok v) /\
  (length x = 3%nat -> x <> s3_ctr e -> exists v, me3_pot e x = Ok v).
Proof.
  intros H Hp Hc Hw. assert (Htb := tables3_for orders tb p H Hp). destruct (wf3_form p e Hw) as [f Ef]. assert (HC : length (s3_ctr e) = 3%nat) by apply Hw.
  set (c0 := s3_ctr e) in *. rewrite Ef.
  assert (PN : forall a b : list R, length a = 3%nat -> length b = 3%nat -> a <> b -> pn (p3 (vsub a b)) <> 0).
  { intros a b Ha Hb N Q. apply N. rewrite <- dist_pn in Q by assumption. destruct a as [|a0 [|a1 [|a2 [|]]]]; try discriminate. destruct b as [|b0 [|b1 [|b2 [|]]]]; try discriminate.
    unfold dist in Q. cbn in Q. assert (S0 := Rle_0_sqr (a0 - b0)). assert (S1 := Rle_0_sqr (a1 - b1)). assert (S2 := Rle_0_sqr (a2 - b2)). unfold Rsqr in *.
    rewrite !Rmult_1_r, Rplus_0_r in Q. apply sqrt_eq_0 in Q; [|lra]. 
    assert (Z0 : (a0 - b0) * (a0 - b0) = 0) by lra. assert (Z1 : (a1 - b1) * (a1 - b1) = 0) by lra. assert (Z2 : (a2 - b2) * (a2 - b2) = 0) by lra.
    apply Rsqr_0_uniq in Z0. apply Rsqr_0_uniq in Z1. apply Rsqr_0_uniq in Z2. f_equal; [lra|f_equal; [lra|f_equal; lra]]. }
  split; [|split; [|split; [|split]]].
  - unfold me3_merge. cbn [ofold s3_ctr s3_ord s3_of]. fold (s3_of (Z.of_nat p) c0 f). rewrite me3_shift_ok by (try assumption; try lia; apply len3_vsub; assumption). cbn [bind].
    rewrite zero_co by lia. cbn [s3_co s3_of]. unfold co_plus. rewrite !co_of_length by lia. rewrite Nat.ltb_irrefl. cbn [bind].
    eexists. split; [reflexivity|]. rewrite firstn_all2 by (rewrite co_of_length by lia; lia). rewrite co_of_plus. apply (s3_of_wf p c). exact Hc.
  - destruct (le3_translate_exact p tb c0 c f Htb HC Hc) as (f' & E & _). eexists. split; [exact E|]. apply s3_of_wf. exact Hc.
  - intros N. rewrite le3_convert_ok by (try assumption; try lia; apply PN; assumption). eexists. split; [reflexivity|]. apply s3_of_wf. exact Hc.
  - intros Hx. eexists. apply le3_pot_ok; try assumption; lia.
  - intros Hx N. eexists. apply me3_pot_ok; try assumption; try lia. apply PN; assumption.
Qed.

(** *** Results do not depend on the history of the tables *)
Theorem history_independent h1 h2 tb1 tb2 p c e es : tables3_after h1 = Ok tb1 -> tables3_after h2 = Ok tb2 ->
  (1 <= p <= max_order3 h1)%nat -> (1 <= p <= max_order3 h2)%nat -> length c = 3%nat -> wf3 p e -> (forall e', In e' es -> wf3 p e') ->
  me3_merge tb1 c es = me3_merge tb2 c es /\ le3_translate tb1 c e = le3_translate tb2 c e /\
  le3_convert tb1 c e = le3_convert tb2 c e.
Proof.
  intros H1 H2 Hp1 Hp2 Hc Hw Hes. assert (T1 := tables3_for h1 tb1 p H1 Hp1). assert (T2 := tables3_for h2 tb2 p H2 Hp2).
  assert (SH : forall e', wf3 p e' -> me3_shift tb1 e' (vsub (s3_ctr e') c) = me3_shift tb2 e' (vsub (s3_ctr e') c)).
  { intros e' Hw'. destruct (wf3_form p e' Hw') as [f Ef]. assert (HC : length (s3_ctr e') = 3%nat) by apply Hw'. rewrite Ef at 1 3.
    rewrite !me3_shift_ok by (try assumption; try lia; apply len3_vsub; assumption). reflexivity. }
  destruct (wf3_form p e Hw) as [f Ef]. assert (HC : length (s3_ctr e) = 3%nat) by apply Hw. split; [|split].
  - unfold me3_merge. destruct es as [|e0 es0] eqn:Ee; [reflexivity|]. rewrite <- Ee in *. f_equal.
    apply ofold_ext_in. intros s a Ha. rewrite (SH a (Hes a Ha)). reflexivity.
  - unfold le3_translate. rewrite Ef. cbn [s3_ctr s3_ord s3_of]. fold (s3_of (Z.of_nat p) (s3_ctr e) f).
    rewrite !le3_shift_ok by (try assumption; try lia; apply len3_vsub; assumption). reflexivity.
  - rewrite Ef. destruct (Req_EM_T (pn (p3 (vsub (s3_ctr e) c))) 0) as [Z|N].
    + unfold le3_convert. cbn [s3_ctr s3_of]. fold (s3_of (Z.of_nat p) (s3_ctr e) f). destruct (spherical_ok (vsub (s3_ctr e) c) ltac:(apply len3_vsub; assumption)) as (r0 & th & ph & E & _ & Er & _).
      rewrite E. cbn [bind]. destruct (ylm_table _ _ _); try reflexivity. cbn [bind vget nth]. unfold rinv. destruct (Req_EM_T r0 0) as [|N]; [reflexivity|]. exfalso. apply N. rewrite Er. exact Z.
    + rewrite !le3_convert_ok by (try assumption; try lia). reflexivity.
Qed.

(** *** Truncation errors *)
Theorem me3_error' center p srcs x rad r : length center = 3%nat -> length x = 3%nat -> same_dim 3 srcs ->
  0 <= rad < r -> (forall s, In s srcs -> dist (ps_pos s) center <= rad) -> r <= dist x center ->
  exists e v, me3_sources center (Z.of_nat p) srcs = Ok e /\ me3_pot e x = Ok v /\
    Rabs (v - direct_potential 3 true srcs x) <= abs_charge srcs * ((rad / r) ^ (p + 1) / (r - rad)).
Proof.
  intros Hc Hx HS Hr Hin Hd. destruct (me3_error p center srcs x rad r Hc Hx HS Hr Hin Hd) as (e & v & E & V & B).
  exists e, v. split; [exact E|]. split; [exact V|]. rewrite Rmult_comm. replace (p + 1)%nat with (S p) by lia. exact B.
Qed.
Theorem le3_error' center p srcs x rad r : length center = 3%nat -> length x = 3%nat -> same_dim 3 srcs ->
  0 <= rad < r -> (forall s, In s srcs -> r <= dist (ps_pos s) center) -> dist x center <= rad ->
  exists e v, le3_sources center (Z.of_nat p) srcs = Ok e /\ le3_pot e x = Ok v /\
    Rabs (v - direct_potential 3 true srcs x) <= abs_charge srcs * ((rad / r) ^ (p + 1) / (r - rad)).
Proof.
  intros Hc Hx HS Hr Hin Hd. destruct (le3_error p center srcs x rad r Hc Hx HS Hr Hin Hd) as (e & v & E & V & B).
  exists e, v. split; [exact E|]. split; [exact V|]. rewrite Rmult_comm. replace (p + 1)%nat with (S p) by lia. exact B.
Qed.
Theorem m2l3_error' orders tb center c p srcs x r1 r2 D : tables3_after orders = Ok tb -> (1 <= p <= max_order3 orders)%nat ->
  length center = 3%nat -> length c = 3%nat -> length x = 3%nat -> same_dim 3 srcs ->
  0 <= r1 -> 0 <= r2 -> r1 + r2 < D -> D <= dist c center ->
  (forall s, In s srcs -> dist (ps_pos s) c <= r2) -> dist x center <= r1 ->
  exists me e v, me3_sources c (Z.of_nat p) srcs = Ok me /\ le3_convert tb center me = Ok e /\ le3_pot e x = Ok v /\
    Rabs (v - direct_potential 3 true srcs x)
    <= abs_charge srcs * (((r2 / (D - r1)) ^ (p + 1) + (r1 / (D - r2)) ^ (p + 1)) / (D - r1 - r2)).
Proof.
  intros H Hp Hc Hc1 Hx HS H1 H2 HD HD' Hin Hd. assert (Htb := tables3_for orders tb p H Hp).
  destruct (m2l3_error p tb center c srcs r1 r2 D Htb Hc Hc1 HS H1 H2 HD Hin HD') as (e & E & _ & B).
  destruct (B x Hx Hd) as (v & V & Bv). exists (s3_of (Z.of_nat p) c (me_coef c srcs)), e, v.
  split; [apply me3_sources_ok; try assumption; lia|]. split; [exact E|]. split; [exact V|].
  rewrite Rmult_comm. replace (p + 1)%nat with (S p) by lia. exact Bv.
Qed.

(** *** Exact translations *)
Theorem me3_merge_exact' orders tb center p (parts : list (list R * list (psrc R))) es : tables3_after orders = Ok tb -> (1 <= p <= max_order3 orders)%nat ->
  length center = 3%nat -> parts <> [] -> (forall u, In u parts -> length (fst u) = 3%nat /\ same_dim 3 (snd u)) ->
  omapM (fun u => me3_sources (fst u) (Z.of_nat p) (snd u)) parts = Ok es ->
  exists e, me3_merge tb center es = Ok e /\ me3_sources center (Z.of_nat p) (flat_map snd parts) = Ok e.
Proof.
  intros H Hp Hc Hne HU Hes. assert (Htb := tables3_for orders tb p H Hp).
  rewrite (omapM_ok _ (fun u => s3_of (Z.of_nat p) (fst u) (me_coef (fst u) (snd u)))) in Hes.
  2:{ intros u Hu. destruct (HU u Hu) as [A B]. apply me3_sources_ok; try assumption; lia. }
  injection Hes as <-. exists (s3_of (Z.of_nat p) center (me_coef center (flat_map snd parts))). split; [apply me3_merge_exact; assumption|].
  apply me3_sources_ok; [lia|assumption|]. intros s Hs. apply in_flat_map in Hs. destruct Hs as (u & Hu & Hs). destruct (HU u Hu) as [_ B]. apply B. exact Hs.
Qed.
Theorem me3_sources_total center p srcs : length center = 3%nat -> same_dim 3 srcs -> exists e, me3_sources center (Z.of_nat p) srcs = Ok e /\ wf3 p e.
Proof. intros Hc HS. eexists. split; [apply me3_sources_ok; try assumption; lia|]. apply s3_of_wf. exact Hc. Qed.
Theorem le3_translate_exact' orders tb center p e : tables3_after orders = Ok tb -> (1 <= p <= max_order3 orders)%nat ->
  length center = 3%nat -> wf3 p e ->
  exists e', le3_translate tb center e = Ok e' /\ s3_ctr e' = center /\ wf3 p e' /\
    forall x, length x = 3%nat -> exists v, le3_pot e x = Ok v /\ le3_pot e' x = Ok v.
Proof.
  intros H Hp Hc Hw. assert (Htb := tables3_for orders tb p H Hp). destruct (wf3_form p e Hw) as [f Ef]. assert (HC : length (s3_ctr e) = 3%nat) by apply Hw.
  destruct (le3_translate_exact p tb (s3_ctr e) center f Htb HC Hc) as (f' & E & V). rewrite <- Ef in E.
  eexists. split; [exact E|]. split; [reflexivity|]. split; [apply s3_of_wf; exact Hc|]. intros x Hx.
  exists (- Re (lval3 (Z.of_nat p) f (p3 (vsub x (s3_ctr e))))). split; [rewrite Ef at 1; apply le3_pot_ok; try assumption; lia|]. rewrite le3_pot_ok by (try assumption; lia). rewrite V by assumption. reflexivity.
Qed.

(** *** Addition *)
Theorem add3_guarded a b : (length (s3_co a) <> length (s3_co b) \/ s3_ctr a <> s3_ctr b) <-> s3_add a b = Throw.
Proof.
  unfold s3_add. destruct (Nat.eqb_spec (length (s3_co a)) (length (s3_co b))) as [E|N]; cbn [negb].
  - destruct (pt_eq_dec (s3_ctr a) (s3_ctr b)) as [E2|N2]; split; intros H; try discriminate; try reflexivity.
    + destruct H; contradiction.
    + right. exact N2.
  - split; auto.
Qed.
Theorem add3_pointwise p a b : wf3 p a -> wf3 p b -> s3_ctr a = s3_ctr b ->
  exists e, s3_add a b = Ok e /\ s3_ctr e = s3_ctr a /\ wf3 p e /\
  (forall k, (k < length (s3_co a))%nat -> nth k (s3_co e) (RtoC 0) = nth k (s3_co a) (RtoC 0) + nth k (s3_co b) (RtoC 0))%C /\
  (forall x va vb, length x = 3%nat -> le3_pot a x = Ok va -> le3_pot b x = Ok vb -> le3_pot e x = Ok (va + vb)).
Proof.
  intros Wa Wb Hc. destruct (wf3_form p a Wa) as [f Ef]. destruct (wf3_form p b Wb) as [g Eg]. assert (HC : length (s3_ctr a) = 3%nat) by apply Wa.
  rewrite <- Hc in Eg. set (c := s3_ctr a) in *. rewrite Ef, Eg. eexists. split; [apply s3_add_of|]. split; [reflexivity|]. split; [apply s3_of_wf; exact HC|]. split.
  - intros k Hk. cbn [s3_co s3_of] in *. unfold co_of in *. rewrite map_length in Hk.
    set (d := (0, 0)%Z). rewrite !(nth_indep _ (RtoC 0) (f (fst d) (snd d))) by (rewrite map_length; exact Hk).
    rewrite (nth_indep (map _ _) (f (fst d) (snd d)) (f (fst d) (snd d) + g (fst d) (snd d))%C) by (rewrite map_length; exact Hk).
    rewrite (map_nth (fun jk => (f (fst jk) (snd jk) + g (fst jk) (snd jk))%C)), (map_nth (fun jk => f (fst jk) (snd jk))).
    rewrite (nth_indep (map (fun jk => g (fst jk) (snd jk)) _) (f (fst d) (snd d)) (g (fst d) (snd d))) by (rewrite map_length; exact Hk).
    rewrite (map_nth (fun jk => g (fst jk) (snd jk))). reflexivity.
  - intros x va vb Hx Va Vb. rewrite le3_pot_ok in Va, Vb by (try assumption; lia). injection Va as <-. injection Vb as <-.
    rewrite le3_pot_ok by (try assumption; lia). rewrite lval_plus. unfold Re. cbn [fst Cplus]. f_equal. ring.
Qed.
