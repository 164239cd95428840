(** The bounding box computed from the sources. *)
From Coq Require Import List Bool ZArith Arith Reals Lra Lia.
From Verif Require Import Num Outcome Vec Orthtree VecProofs GeometrySpec.
Import ListNotations.
Local Open Scope R_scope.

Definition eps5 : R := 1 / 100000.
(** [lo], [hi] are the exact componentwise bounds of [pts]. *)
Definition exact_bounds (d : nat) (pts : list (list R)) (lo hi : list R) : Prop :=
  length lo = d /\ length hi = d /\ forall j, (j < d)%nat ->
    (forall x, In x pts -> nth j lo 0 <= nth j x 0 <= nth j hi 0) /\
    (exists x, In x pts /\ nth j lo 0 = nth j x 0) /\ (exists x, In x pts /\ nth j hi 0 = nth j x 0).

Lemma map2_lower d (p lo : list R) : length p = d -> length lo = d ->
  exists lo', map2 lower_step p (map Some lo) = map Some lo' /\ length lo' = d /\
    forall j, (j < d)%nat -> nth j lo' 0 = Rmin (nth j lo 0) (nth j p 0).
Proof.
  revert p lo; induction d as [|d IH]; intros [|x p] [|y lo] Hp Hl; try discriminate.
  - exists []. repeat split; auto. intros; lia.
  - destruct (IH p lo) as (lo' & E & L & B); [auto|auto|].
    exists ((if Rltb x y then x else y) :: lo'). unfold map2 in *. cbn [map combine]. rewrite E. split.
    + cbn. destruct (Rltb x y); reflexivity.
    + split; [simpl; auto|]. intros [|j] Hj; simpl; [|apply B; lia].
      destruct (Rltb_spec x y); unfold Rmin; destruct (Rle_dec y x); lra.
Qed.
Lemma map2_upper d (p hi : list R) : length p = d -> length hi = d ->
  exists hi', map2 upper_step p (map Some hi) = map Some hi' /\ length hi' = d /\
    forall j, (j < d)%nat -> nth j hi' 0 = Rmax (nth j hi 0) (nth j p 0).
Proof.
  revert p hi; induction d as [|d IH]; intros [|x p] [|y hi] Hp Hl; try discriminate.
  - exists []. repeat split; auto. intros; lia.
  - destruct (IH p hi) as (lo' & E & L & B); [auto|auto|].
    exists ((if Rltb y x then x else y) :: lo'). unfold map2 in *. cbn [map combine]. rewrite E. split.
    + cbn. destruct (Rltb y x); reflexivity.
    + split; [simpl; auto|]. intros [|j] Hj; simpl; [|apply B; lia].
      destruct (Rltb_spec y x); unfold Rmax; destruct (Rle_dec y x); lra.
Qed.
Lemma map2_none_lower d (p : list R) : length p = d -> map2 lower_step p (repeat None d) = map Some p.
Proof. revert p; induction d; intros [|x p] H; try discriminate; [reflexivity|]. unfold map2 in *. simpl in *. rewrite IHd by auto. rewrite (proj2 (Rleb_true x x)) by lra. reflexivity. Qed.
Lemma map2_none_upper d (p : list R) : length p = d -> map2 upper_step p (repeat None d) = map Some p.
Proof. revert p; induction d; intros [|x p] H; try discriminate; [reflexivity|]. unfold map2 in *. simpl in *. rewrite IHd by auto. rewrite (proj2 (Rleb_true x x)) by lra. reflexivity. Qed.

Lemma raw_range_fold d done pts lo hi : (forall x, In x pts -> length x = d) -> exact_bounds d done lo hi -> 
  exists lo' hi', fold_left (@range_step R _) pts (map Some lo, map Some hi) = (map Some lo', map Some hi') /\
    exact_bounds d (done ++ pts) lo' hi'.
Proof.
  revert done lo hi; induction pts as [|p pts IH]; intros done lo hi HL B.
  - exists lo, hi. rewrite app_nil_r. split; [reflexivity|assumption].
  - cbn [fold_left]. unfold range_step at 2. cbn [fst snd]. destruct B as (L1 & L2 & B).
    assert (Hp : length p = d) by (apply HL; left; reflexivity).
    destruct (map2_lower d p lo Hp L1) as (lo' & E1 & L1' & B1).
    destruct (map2_upper d p hi Hp L2) as (hi' & E2 & L2' & B2).
    rewrite E1, E2. destruct (IH (done ++ [p]) lo' hi') as (lo2 & hi2 & E & X).
    + intros x Hx. apply HL. right. assumption.
    + split; [assumption|]. split; [assumption|]. intros j Hj. rewrite B1, B2 by assumption.
      destruct (B j Hj) as (C & (a & Ha & Ea) & (b & Hb & Eb)). split; [|split].
      * intros x Hx. apply in_app_iff in Hx. destruct Hx as [Hx|[<-|[]]].
        -- specialize (C x Hx). unfold Rmin, Rmax. destruct (Rle_dec _ _), (Rle_dec _ _); lra.
        -- split; [apply Rmin_r|apply Rmax_r].
      * unfold Rmin. destruct (Rle_dec _ _); [exists a|exists p]; split; auto; apply in_app_iff; simpl; auto.
      * unfold Rmax. destruct (Rle_dec _ _); [exists p|exists b]; split; auto; apply in_app_iff; simpl; auto.
    + exists lo2, hi2. split; [assumption|]. rewrite <- app_assoc in X. exact X.
Qed.

Lemma raw_range_spec d pts : pts <> [] -> (forall x, In x pts -> length x = d) ->
  exists lo hi, raw_range d pts = (map Some lo, map Some hi) /\ exact_bounds d pts lo hi.
Proof.
  destruct pts as [|p pts]; intros HN HL; [congruence|].
  assert (Hp : length p = d) by (apply HL; left; reflexivity).
  unfold raw_range. cbn [fold_left]. unfold range_step at 2. cbn [fst snd].
  rewrite map2_none_lower, map2_none_upper by assumption.
  destruct (raw_range_fold d [p] pts p p) as (lo & hi & E & B).
  - intros x Hx. apply HL. right. assumption.
  - split; [assumption|]. split; [assumption|]. intros j Hj. split; [|split].
    + intros x [<-|[]]. lra.
    + exists p. simpl; auto.
    + exists p. simpl; auto.
  - exists lo, hi. split; assumption.
Qed.

Lemma all_some_map {A} (l : list A) : all_some (map Some l) = Some l.
Proof. induction l; simpl; [reflexivity|]. rewrite IHl. reflexivity. Qed.

Lemma max_element_spec (l : list R) : l <> [] -> exists m, max_element l = Some m /\ In m l /\ forall x, In x l -> x <= m.
Proof.
  destruct l as [|a l]; intros H; [congruence|]. cbn [max_element].
  exists (fold_left (fun m y => if nltb m y then y else m) l a). split; [reflexivity|].
  assert (G : forall l a, In (fold_left (fun m y => if nltb m y then y else m) l a) (a :: l) /\
    forall x, In x (a :: l) -> x <= fold_left (fun m y => if nltb m y then y else m) l a).
  { clear. induction l as [|b l IH]; intros a.
    - simpl. split; [auto|]. intros x [->|[]]. lra.
    - cbn [fold_left]. cbn [nltb NumR]. destruct (Rltb_spec a b) as [L|L].
      + destruct (IH b) as [I M]. split; [right; exact I|]. intros x [<-|Hx]; [|apply M; assumption].
        apply Rle_trans with b; [lra|]. apply M. left; reflexivity.
      + destruct (IH a) as [I M]. split.
        * destruct I as [I|I]; [left; exact I|right; right; exact I].
        * intros x [<-|[<-|Hx]].
          -- apply M. left; reflexivity.
          -- apply Rle_trans with a; [lra|]. apply M. left; reflexivity.
          -- apply M. right; assumption. }
  apply G.
Qed.

Lemma nth_pad v j : (j < length v)%nat -> nth j (pad v) 0 = nth j v 0 * (1 + eps5).
Proof.
  intros H. unfold pad. rewrite nth_vadd by (rewrite ?len_vscale; assumption). rewrite nth_vscale by assumption.
  unfold eps5. simpl. lra.
Qed.
Lemma len_pad (v : list R) : length (pad v) = length v.
Proof. unfold pad. rewrite len_vadd, len_vscale. apply Nat.min_id. Qed.

Lemma root_box_spec d pts : (1 <= d)%nat -> pts <> [] -> (forall x, In x pts -> length x = d) ->
  exists lo hi c l, exact_bounds d pts lo hi /\ root_box d pts = Some (c, l) /\ length c = d /\
    (forall j, (j < d)%nat -> nth j c 0 = (nth j lo 0 + nth j hi 0) * (1 + eps5) / 2) /\
    (forall j, (j < d)%nat -> (nth j hi 0 - nth j lo 0) * (1 + eps5) <= l) /\
    exists j, (j < d)%nat /\ l = (nth j hi 0 - nth j lo 0) * (1 + eps5).
Proof.
  intros Hd HN HL. destruct (raw_range_spec d pts HN HL) as (lo & hi & E & B).
  assert (B' := B). destruct B' as (L1 & L2 & _).
  assert (P1 : length (pad lo) = d) by (rewrite len_pad; assumption).
  assert (P2 : length (pad hi) = d) by (rewrite len_pad; assumption).
  assert (LS : length (vsub (pad hi) (pad lo)) = d) by (rewrite len_vsub; lia).
  assert (LA : length (vadd (pad lo) (pad hi)) = d) by (rewrite len_vadd; lia).
  assert (NS : forall j, (j < d)%nat -> nth j (vsub (pad hi) (pad lo)) 0 = (nth j hi 0 - nth j lo 0) * (1 + eps5)).
  { intros j Hj. rewrite nth_vsub, !nth_pad by lia. ring. }
  destruct (max_element_spec (vsub (pad hi) (pad lo))) as (l & EM & IM & MM).
  { intros Z. rewrite Z in LS. simpl in LS. lia. }
  exists lo, hi, (vscale (vadd (pad lo) (pad hi)) (nlit 1 2)), l.
  split; [assumption|]. split; [|split; [|split; [|split]]].
  - unfold root_box, data_range. rewrite E. cbn [fst snd]. rewrite !all_some_map, EM. reflexivity.
  - rewrite len_vscale. assumption.
  - intros j Hj.
    rewrite nth_vscale, nth_vadd, !nth_pad by lia. simpl. field.
  - intros j Hj. rewrite <- NS by assumption. apply MM. apply nth_In. lia.
  - destruct (In_nth _ _ 0 IM) as (j & Hj & Ej). exists j. split; [lia|]. rewrite <- Ej. apply NS. lia.
Qed.
