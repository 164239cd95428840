(** Basic facts about vectors and boxes over R. *)
From Coq Require Import List Bool ZArith Arith Reals Lra Lia.
From Verif Require Import Num Outcome Vec Orthtree.
Import ListNotations.

Lemma length_map2 {A B C} (f : A -> B -> C) a b : length (map2 f a b) = Nat.min (length a) (length b).
Proof. unfold map2. rewrite map_length, combine_length. reflexivity. Qed.

Lemma nth_map2 {A B C} (f : A -> B -> C) a b j da db dc :
  j < length a -> j < length b -> nth j (map2 f a b) dc = f (nth j a da) (nth j b db).
Proof.
  revert b j; induction a as [|x a IH]; intros [|y b] j Ha Hb; simpl in *; try lia.
  destruct j; simpl; [reflexivity|]. apply IH; lia.
Qed.

Lemma nth_map_lt {A B} (f : A -> B) l j da db : j < length l -> nth j (map f l) db = f (nth j l da).
Proof.
  revert j; induction l as [|x l IH]; intros j H; simpl in *; [lia|].
  destruct j; [reflexivity|]. apply IH; lia.
Qed.

Section R.
Local Open Scope R_scope.

Lemma nhalf_R (x : R) : nhalf x = x / 2.
Proof. unfold nhalf; simpl. lra. Qed.
Lemma nneg1_R : (nneg1 : R) = -1.
Proof. unfold nneg1; simpl. lra. Qed.

Lemma len_vadd (a b : list R) : length (vadd a b) = Nat.min (length a) (length b).
Proof. apply length_map2. Qed.
Lemma len_vscale (a : list R) s : length (vscale a s) = length a.
Proof. apply map_length. Qed.
Lemma len_vneg (a : list R) : length (vneg a) = length a.
Proof. apply map_length. Qed.
Lemma len_vsub (a b : list R) : length (vsub a b) = Nat.min (length a) (length b).
Proof. unfold vsub. rewrite len_vadd, len_vneg. reflexivity. Qed.
Lemma len_vfill d (x : R) : length (vfill d x) = d.
Proof. apply repeat_length. Qed.
Lemma len_child_dir d i : length (child_dir (T := R) d i) = d.
Proof. unfold child_dir. rewrite map_length, seq_length. reflexivity. Qed.

Lemma vget_vadd (a b : list R) j : (j < length a)%nat -> (j < length b)%nat -> vget (vadd a b) j = vget a j + vget b j.
Proof. intros. unfold vget, vadd. rewrite (nth_map2 _ _ _ _ 0 0) by assumption. reflexivity. Qed.
Lemma vget_vscale (a : list R) s j : (j < length a)%nat -> vget (vscale a s) j = vget a j * s.
Proof. intros. unfold vget, vscale. rewrite (nth_map_lt _ _ _ 0) by assumption. reflexivity. Qed.
Lemma vget_vneg (a : list R) j : (j < length a)%nat -> vget (vneg a) j = - vget a j.
Proof. intros. unfold vneg. rewrite vget_vscale by assumption. rewrite nneg1_R. lra. Qed.
Lemma vget_vsub (a b : list R) j : (j < length a)%nat -> (j < length b)%nat -> vget (vsub a b) j = vget a j - vget b j.
Proof. intros. unfold vsub. rewrite vget_vadd by (rewrite ?len_vneg; assumption). rewrite vget_vneg by assumption. lra. Qed.
Lemma vget_vfill d (x : R) j : (j < d)%nat -> vget (vfill d x) j = x.
Proof. revert j; induction d; intros [|j] H; try lia; [reflexivity|]. apply (IHd j). lia. Qed.
Lemma vget_child_dir d i j : (j < d)%nat ->
  vget (child_dir (T := R) d i) j = if Nat.testbit i (d - 1 - j) then 1 else -1.
Proof.
  intros. unfold vget, child_dir. rewrite (nth_map_lt _ _ _ 0%nat) by (rewrite seq_length; assumption).
  rewrite seq_nth by assumption. cbn [plus]. replace (d - j - 1)%nat with (d - 1 - j)%nat by lia.
  rewrite nneg1_R. reflexivity.
Qed.

Lemma vget_box_lower d (c : list R) l j : length c = d -> (j < d)%nat -> vget (box_lower d c l) j = vget c j - l / 2.
Proof.
  intros. unfold box_lower. rewrite vget_vsub by (rewrite ?len_vscale, ?len_vfill; lia).
  rewrite vget_vscale by (rewrite len_vfill; lia). rewrite vget_vfill by assumption. rewrite nhalf_R. simpl. lra.
Qed.
Lemma vget_box_upper d (c : list R) l j : length c = d -> (j < d)%nat -> vget (box_upper d c l) j = vget c j + l / 2.
Proof.
  intros. unfold box_upper. rewrite vget_vadd by (rewrite ?len_vscale, ?len_vfill; lia).
  rewrite vget_vscale by (rewrite len_vfill; lia). rewrite vget_vfill by assumption. rewrite nhalf_R. simpl. lra.
Qed.
Lemma len_box_lower d (c : list R) l : length c = d -> length (box_lower d c l) = d.
Proof. intros. unfold box_lower. rewrite len_vsub, len_vscale, len_vfill. lia. Qed.
Lemma len_box_upper d (c : list R) l : length c = d -> length (box_upper d c l) = d.
Proof. intros. unfold box_upper. rewrite len_vadd, len_vscale, len_vfill. lia. Qed.

Lemma len_child_center d (c : list R) l i : length c = d -> length (child_center d c l i) = d.
Proof. intros. unfold child_center. rewrite len_vadd, len_vscale, len_child_dir. lia. Qed.
Lemma vget_child_center d (c : list R) l i j : length c = d -> (j < d)%nat ->
  vget (child_center d c l i) j = vget c j + (if Nat.testbit i (d - 1 - j) then l / 2 else - (l / 2)).
Proof.
  intros. unfold child_center. rewrite vget_vadd by (rewrite ?len_vscale, ?len_child_dir; lia).
  rewrite vget_vscale by (rewrite len_child_dir; lia). rewrite vget_child_dir by assumption. rewrite nhalf_R.
  destruct (Nat.testbit i (d - 1 - j)); lra.
Qed.

(** Vectors of the same length with the same components are equal. *)
Lemma vec_ext (a b : list R) d : length a = d -> length b = d ->
  (forall j, (j < d)%nat -> vget a j = vget b j) -> a = b.
Proof.
  intros Ha Hb H. apply (nth_ext _ _ 0 0); [congruence|]. intros n Hn. apply H. lia.
Qed.

Lemma nth_vadd (a b : list R) j : (j < length a)%nat -> (j < length b)%nat -> nth j (vadd a b) 0 = nth j a 0 + nth j b 0.
Proof. exact (vget_vadd a b j). Qed.
Lemma nth_vsub (a b : list R) j : (j < length a)%nat -> (j < length b)%nat -> nth j (vsub a b) 0 = nth j a 0 - nth j b 0.
Proof. exact (vget_vsub a b j). Qed.
Lemma nth_vscale (a : list R) s j : (j < length a)%nat -> nth j (vscale a s) 0 = nth j a 0 * s.
Proof. exact (vget_vscale a s j). Qed.
End R.
