(** The passes of the adaptive tree compute, for every schedule, the multipole expansion of every box and the local
    expansion of every leaf, for any operations on expansions that satisfy [sound]. *)
From Coq Require Import List Bool ZArith Arith Lia Lra Reals Permutation Sorted.
From Verif Require Import Num Outcome Vec Orthtree AdaptiveTree TreeSpec VecProofs GeometrySpec GeometryProofs TreeGeometry
  AdaptiveProofs BfsProofs ListProofs ListContents BuildProofs CAux FieldSpec Schedule Fields FmmPasses PassProofs PassSteps.
Import ListNotations.

(** Some coordinate of the two points differs by at least [r]. *)
Definition apart (d : nat) (c c' : list R) (r : R) : Prop :=
  exists j, (j < d)%nat /\ (r <= Rabs (nth j c 0 - nth j c' 0))%R.

(** What the passes need to know about the operations: [MEof c S e] says that [e] is the multipole expansion at [c] of the
    sources [S]; [wfLE c e] that [e] is a local expansion at [c]; [lval i e x] is the [i]-th functional (potential, force
    component) of [e] at [x], [dir i s x] the exact contribution of source [s]; [E i len] bounds the truncation error per
    unit of charge for boxes of side [len]. *)
Record sound {ME LE Tb I : Type} (o : ops ME LE Tb) (d : nat) (tb : Tb)
    (MEof : list R -> list (psrc R) -> ME -> Prop) (wfLE : list R -> LE -> Prop)
    (lval : I -> LE -> list R -> R) (dir : I -> psrc R -> list R -> R) (E : I -> R -> R) : Prop := {
  so_p2m : forall c S, length c = d -> same_dim d S -> exists e, o_p2m o tb c S = Ok (e, tb) /\ MEof c S e;
  so_m2m : forall c (parts : list (list R * list (psrc R) * ME)), length c = d -> parts <> [] ->
    (forall u, In u parts -> MEof (fst (fst u)) (snd (fst u)) (snd u)) ->
    exists e, o_m2m o tb c (map snd parts) = Ok (e, tb) /\ MEof c (flat_map (fun u => snd (fst u)) parts) e;
  so_zero : forall tb' c, length c = d -> wfLE c (fst (o_zero o tb' c)) /\ forall i x, lval i (fst (o_zero o tb' c)) x = 0%R;
  so_size : forall c e, wfLE c e -> o_size o e <> 0%nat;
  so_add : forall c a b, wfLE c a -> wfLE c b -> exists e, o_add o a b = Ok e /\ wfLE c e /\ forall i x, lval i e x = (lval i a x + lval i b x)%R;
  so_l2l : forall c c' e, length c' = d -> wfLE c e ->
    exists e', o_l2l o tb c' e = Ok (e', tb) /\ wfLE c' e' /\ forall i x, lval i e' x = lval i e x;
  so_m2l : forall c len (parts : list (list R * list (psrc R) * ME)), length c = d -> (0 < len)%R -> parts <> [] ->
    (forall u, In u parts -> MEof (fst (fst u)) (snd (fst u)) (snd u) /\ length (fst (fst u)) = d /\ same_dim d (snd (fst u)) /\
       (forall s, In s (snd (fst u)) -> in_box d (fst (fst u)) len (ps_pos s)) /\ apart d c (fst (fst u)) (2 * len)) ->
    exists e, o_m2l o tb c (map snd parts) = Ok (e, tb) /\ wfLE c e /\ forall i x, length x = d -> in_box d c len x ->
      (Rabs (lval i e x - rsum (fun s => dir i s x) (flat_map (fun u => snd (fst u)) parts))
       <= E i len * abs_charge (flat_map (fun u => snd (fst u)) parts))%R;
  so_p2l : forall c len S, length c = d -> (0 < len)%R -> same_dim d S ->
    (forall s, In s S -> apart d c (ps_pos s) (3 / 2 * len)) ->
    exists e, o_p2l o tb c S = Ok (e, tb) /\ wfLE c e /\ forall i x, length x = d -> in_box d c len x ->
      (Rabs (lval i e x - rsum (fun s => dir i s x) S) <= E i len * abs_charge S)%R;
  so_E : forall i l1 l2, (0 < l1 <= l2 -> E i l2 <= E i l1)%R
}.

Lemma abs_charge_perm xs ys : Permutation xs ys -> abs_charge xs = abs_charge ys.
Proof. apply rsum_perm. Qed.
Lemma abs_charge_app xs ys : abs_charge (xs ++ ys) = (abs_charge xs + abs_charge ys)%R.
Proof. apply rsum_app. Qed.
Lemma abs_charge_nonneg xs : (0 <= abs_charge xs)%R.
Proof. unfold abs_charge, rsum. induction xs as [|s xs IH]; simpl; [lra|]. assert (H := Rabs_pos (ps_q s)). lra. Qed.

(** Geometry: a box [p] and a point of a box [q] that is not smaller and does not touch it. *)
Lemma apart_gap d c l p q y : length c = d -> (0 < l)%R -> (length q <= length p)%nat -> touch d p q = false ->
  in_box d (box_ctr d c l q) (box_len l q) y -> apart d (box_ctr d c l p) y (3 / 2 * box_len l p).
Proof.
  intros Hc Hl Hle NT Hin.
  assert (NT' : ~ (forall j, (j < d)%nat -> (gco d j p * p2 q <= (gco d j q + 1) * p2 p /\ gco d j q * p2 p <= (gco d j p + 1) * p2 q)%Z)).
  { intros H. apply touch_iff in H. congruence. }
  assert (Ex : exists j, (j < d)%nat /\ ~ (gco d j p * p2 q <= (gco d j q + 1) * p2 p /\ gco d j q * p2 p <= (gco d j p + 1) * p2 q)%Z).
  { clear - NT'. assert (G : forall n, (n <= d)%nat -> (forall j, (j < n)%nat -> (gco d j p * p2 q <= (gco d j q + 1) * p2 p /\ gco d j q * p2 p <= (gco d j p + 1) * p2 q)%Z)
       \/ exists j, (j < d)%nat /\ ~ (gco d j p * p2 q <= (gco d j q + 1) * p2 p /\ gco d j q * p2 p <= (gco d j p + 1) * p2 q)%Z).
    { induction n as [|n IH]; intros Hn; [left; intros; lia|]. destruct (IH ltac:(lia)) as [A|A]; [|right; exact A].
      destruct (Z_le_dec (gco d n p * p2 q) ((gco d n q + 1) * p2 p)) as [X|X];
        [destruct (Z_le_dec (gco d n q * p2 p) ((gco d n p + 1) * p2 q)) as [Y|Y]|].
      - left. intros j Hj. destruct (Nat.eq_dec j n) as [->|]; [split; assumption|apply A; lia].
      - right. exists n. split; [lia|]. intros [_ B]. contradiction.
      - right. exists n. split; [lia|]. intros [B _]. contradiction. }
    destruct (G d (le_n d)) as [A|A]; [contradiction|exact A]. }
  destruct Ex as [j [Hj N]]. exists j. split; [exact Hj|].
  specialize (Hin j Hj). rewrite (nth_box_ctr d c l q j Hc Hj) in Hin. rewrite (nth_box_ctr d c l p j Hc Hj).
  rewrite box_len_pow in *.
  assert (Pq : (p2 p = p2 q * 2 ^ Z.of_nat (length p - length q))%Z).
  { unfold p2. rewrite <- Z.pow_add_r by lia. f_equal. lia. }
  set (m := (2 ^ Z.of_nat (length p - length q))%Z) in *.
  assert (Hm : (0 < m)%Z) by (apply Z.pow_pos_nonneg; lia).
  assert (Hq := p2_pos q).
  assert (N2 : (gco d j p >= (gco d j q + 1) * m + 1 \/ gco d j q * m >= gco d j p + 2)%Z).
  { rewrite Pq in N. clear - N Hq Hm. destruct (Z_le_dec (gco d j p) ((gco d j q + 1) * m)) as [X|X]; [|left; lia].
    destruct (Z_le_dec (gco d j q * m) (gco d j p + 1)) as [Y|Y]; [|right; lia]. exfalso. apply N. split; nia. }
  assert (PW := pow2_pos (length p)). assert (PWq := pow2_pos (length q)).
  set (u := (l / 2 ^ length p)%R) in *. assert (Hu : (0 < u)%R) by (apply Rdiv_lt_0_compat; lra).
  assert (Eq : (l / 2 ^ length q = IZR m * u)%R).
  { unfold u. assert (IZR (p2 p) = IZR (p2 q) * IZR m)%R by (rewrite Pq, mult_IZR; reflexivity).
    rewrite !IZR_p2 in H. rewrite H. field. split; [apply not_0_IZR; lia|lra]. }
  rewrite Eq in Hin. set (gp := gco d j p) in *. set (gq := gco d j q) in *. set (base := (nth j c 0 - l / 2)%R) in *.
  destruct N2 as [N2|N2].
  - apply Z.ge_le, IZR_le in N2. rewrite plus_IZR, mult_IZR, plus_IZR in N2.
    rewrite Rabs_right; nra.
  - apply Z.ge_le, IZR_le in N2. rewrite plus_IZR, mult_IZR in N2.
    rewrite Rabs_left1; nra.
Qed.
Lemma apart_centers d c l p q : length c = d -> (0 < l)%R -> length p = length q -> touch d p q = false ->
  apart d (box_ctr d c l p) (box_ctr d c l q) (2 * box_len l p).
Proof.
  intros Hc Hl V1 NT. destruct (touch_same_level d p q V1 NT) as (j & Hj & D). exists j. split; [assumption|].
  rewrite !(nth_box_ctr d c l _ j) by assumption. rewrite V1, box_len_pow, V1.
  assert (PW := pow2_pos (length q)).
  replace (_ - _)%R with (IZR (gco d j p - gco d j q) * (l / 2 ^ length q))%R by (rewrite minus_IZR; field; lra).
  rewrite Rabs_mult, <- abs_IZR. rewrite (Rabs_pos_eq (l / _)) by (apply div_nonneg; lra).
  apply IZR_le in D. apply Rmult_le_compat_r; [apply div_nonneg; lra|assumption].
Qed.

(** The same for the boxes of one tree only: [c0], [l0] is the root box and [Q] says which sources occur.  This is weaker
    than [sound], and all the passes need. *)
Record sound_in {ME LE Tb I : Type} (o : ops ME LE Tb) (d : nat) (tb : Tb)
    (MEof : list R -> list (psrc R) -> ME -> Prop) (wfLE : list R -> LE -> Prop)
    (lval : I -> LE -> list R -> R) (dir : I -> psrc R -> list R -> R) (E : I -> R -> R)
    (c0 : list R) (l0 : R) (Q : psrc R -> Prop) : Prop := {
  si_p2m : forall c S, length c = d -> same_dim d S -> exists e, o_p2m o tb c S = Ok (e, tb) /\ MEof c S e;
  si_m2m : forall c (parts : list (list R * list (psrc R) * ME)), length c = d -> parts <> [] ->
    (forall u, In u parts -> MEof (fst (fst u)) (snd (fst u)) (snd u)) ->
    exists e, o_m2m o tb c (map snd parts) = Ok (e, tb) /\ MEof c (flat_map (fun u => snd (fst u)) parts) e;
  si_zero : forall tb' c, length c = d -> wfLE c (fst (o_zero o tb' c)) /\ forall i x, lval i (fst (o_zero o tb' c)) x = 0%R;
  si_size : forall c e, wfLE c e -> o_size o e <> 0%nat;
  si_add : forall c a b, wfLE c a -> wfLE c b -> exists e, o_add o a b = Ok e /\ wfLE c e /\ forall i x, lval i e x = (lval i a x + lval i b x)%R;
  si_l2l : forall c c' e, length c' = d -> wfLE c e ->
    exists e', o_l2l o tb c' e = Ok (e', tb) /\ wfLE c' e' /\ forall i x, lval i e' x = lval i e x;
  si_m2l : forall p (parts : list (list R * list (psrc R) * ME)), parts <> [] ->
    (forall u, In u parts -> exists q, fst (fst u) = box_ctr d c0 l0 q /\ length q = length p /\ touch d p q = false /\
       MEof (fst (fst u)) (snd (fst u)) (snd u) /\ same_dim d (snd (fst u)) /\
       forall s, In s (snd (fst u)) -> Q s /\ in_box d (box_ctr d c0 l0 q) (box_len l0 q) (ps_pos s)) ->
    exists e, o_m2l o tb (box_ctr d c0 l0 p) (map snd parts) = Ok (e, tb) /\ wfLE (box_ctr d c0 l0 p) e /\
      forall i x, length x = d -> in_box d (box_ctr d c0 l0 p) (box_len l0 p) x ->
      (Rabs (lval i e x - rsum (fun s => dir i s x) (flat_map (fun u => snd (fst u)) parts))
       <= E i (box_len l0 p) * abs_charge (flat_map (fun u => snd (fst u)) parts))%R;
  si_p2l : forall p q S, (length q < length p)%nat -> touch d p q = false -> same_dim d S ->
    (forall s, In s S -> Q s /\ in_box d (box_ctr d c0 l0 q) (box_len l0 q) (ps_pos s)) ->
    exists e, o_p2l o tb (box_ctr d c0 l0 p) S = Ok (e, tb) /\ wfLE (box_ctr d c0 l0 p) e /\
      forall i x, length x = d -> in_box d (box_ctr d c0 l0 p) (box_len l0 p) x ->
      (Rabs (lval i e x - rsum (fun s => dir i s x) S) <= E i (box_len l0 p) * abs_charge S)%R;
  si_E : forall i l1 l2, (0 < l1 <= l2 -> E i l2 <= E i l1)%R
}.

Lemma sound_everywhere {ME LE Tb I : Type} (o : ops ME LE Tb) (d : nat) (tb : Tb) MEof wfLE (lval : I -> LE -> list R -> R) dir E c0 l0 Q :
  length c0 = d -> (0 < l0)%R -> sound o d tb MEof wfLE lval dir E -> sound_in o d tb MEof wfLE lval dir E c0 l0 Q.
Proof.
  intros Hc Hl SO. assert (BL : forall p, (0 < box_len l0 p)%R).
  { intros p. rewrite box_len_pow. apply Rdiv_lt_0_compat; [exact Hl|apply pow2_pos]. }
  assert (CL : forall p, length (box_ctr d c0 l0 p) = d) by (intros; apply len_box_ctr; exact Hc).
  constructor.
  - exact (so_p2m _ _ _ _ _ _ _ _ SO).
  - exact (so_m2m _ _ _ _ _ _ _ _ SO).
  - exact (so_zero _ _ _ _ _ _ _ _ SO).
  - exact (so_size _ _ _ _ _ _ _ _ SO).
  - exact (so_add _ _ _ _ _ _ _ _ SO).
  - exact (so_l2l _ _ _ _ _ _ _ _ SO).
  - intros p parts Hne HM. apply (so_m2l _ _ _ _ _ _ _ _ SO); [apply CL|apply BL|exact Hne|].
    intros u Hu. destruct (HM u Hu) as (q & X1 & X2 & X3 & X4 & X5 & X6). split; [exact X4|]. rewrite X1. split; [apply CL|]. split; [exact X5|]. split.
    + intros s Hs. replace (box_len l0 p) with (box_len l0 q) by (rewrite !box_len_pow, X2; reflexivity). apply X6. exact Hs.
    + apply apart_centers; congruence || assumption.
  - intros p q S Hlen NT HS HQ. apply (so_p2l _ _ _ _ _ _ _ _ SO); [apply CL|apply BL|exact HS|].
    intros s Hs. eapply (apart_gap d c0 l0 p q); [exact Hc|exact Hl|lia|exact NT|]. apply HQ. exact Hs.
  - exact (so_E _ _ _ _ _ _ _ _ SO).
Qed.
