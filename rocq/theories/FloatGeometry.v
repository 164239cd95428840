(** The geometry of the boxes in IEEE doubles, for coordinates without overflow and underflow, is that of the model with rounded
    operations. *)
From Coq Require Import Reals List Bool ZArith Arith Lia Lra.
From Flocq Require Import Core.
From Verif Require Import Num Outcome Vec Orthtree AdaptiveTree BalancedTree RoundedCases RoundedTree FloatCases FloatFit.
From Coq Require Import Floats.
Import ListNotations.
Local Open Scope R_scope.

Notation NR := (NumRnd double_round).
Notation rv := (map real_of).
Definition fitv (e E : Z) (v : list float) : Prop := Forall (fits e E) v.
Notation fin x := (PrimFloat.is_finite x = true).
Definition finv (v : list float) : Prop := Forall (fun x => fin x) v.

Lemma map_repeat {A B} (f : A -> B) x n : map f (repeat x n) = repeat (f x) n.
Proof. induction n as [|n IH]; [reflexivity|]. cbn [repeat map]. rewrite IH. reflexivity. Qed.
Lemma fitv_fin e E v : fitv e E v -> finv v.
Proof. apply Forall_impl. intros x H. apply H. Qed.
Lemma fitv_weaken e E e' E' v : (e' <= e)%Z -> (E <= E')%Z -> fitv e E v -> fitv e' E' v.
Proof. intros L1 L2. apply Forall_impl. intros x. apply fits_weaken; assumption. Qed.

Lemma vget_real v i : real_of (vget (N := NumF) v i) = vget (N := NR) (rv v) i.
Proof. unfold vget. cbn [n0 NumF NumRnd]. rewrite <- (proj2 zero_real). symmetry. apply map_nth. Qed.
Lemma vget_fin v i : finv v -> fin (vget (N := NumF) v i).
Proof.
  intros H. unfold vget. destruct (nth_in_or_default i v (n0 (Num := NumF))) as [I|E].
  - unfold finv in H. rewrite Forall_forall in H. apply H, I.
  - rewrite E. apply zero_real.
Qed.
Lemma vget_fits e E v i : fitv e E v -> fits e E (vget (N := NumF) v i).
Proof.
  intros H. unfold vget. destruct (nth_in_or_default i v (n0 (Num := NumF))) as [I|Q].
  - unfold fitv in H. rewrite Forall_forall in H. apply H, I.
  - rewrite Q. cbn [n0 NumF]. destruct zero_real as [F Z]. split; [exact F|]. rewrite Z. split; [exists 0%Z; ring|]. rewrite Rabs_R0. apply bpow_ge_0.
Qed.

Lemma vadd_real e E a b : (-1022 <= e)%Z -> (E <= 1019)%Z -> fitv e E a -> fitv e E b ->
  fitv e (E + 1) (vadd (N := NumF) a b) /\ rv (vadd (N := NumF) a b) = vadd (N := NR) (rv a) (rv b).
Proof.
  intros L1 L2 HA. revert b. induction HA as [|x a X HA IH]; intros b HB; [split; [constructor|reflexivity]|].
  destruct HB as [|y b Y HB]; [split; [constructor|reflexivity]|]. destruct (IH b HB) as [IF IR]. destruct (fits_add e E x y L1 L2 X Y) as [F R].
  split; [constructor; assumption|]. change (vadd (N := NumF) (x :: a) (y :: b)) with ((x + y)%float :: vadd (N := NumF) a b).
  cbn [map]. rewrite IR, R. reflexivity.
Qed.
Lemma vscale_real e E f F v s : (-1022 <= e + f)%Z -> (E + F <= 1020)%Z -> fitv e E v -> fits f F s ->
  fitv (e + f) (E + F) (vscale (N := NumF) v s) /\ rv (vscale (N := NumF) v s) = vscale (N := NR) (rv v) (real_of s).
Proof.
  intros L1 L2 HV HS. induction HV as [|x v X HV IH]; [split; [constructor|reflexivity]|]. destruct IH as [IF IR].
  destruct (fits_mul e E f F x s L1 L2 X HS) as [G R]. split; [constructor; assumption|].
  change (vscale (N := NumF) (x :: v) s) with ((x * s)%float :: vscale (N := NumF) v s). cbn [map]. rewrite IR, R. reflexivity.
Qed.
Lemma nneg1_real : real_of (nneg1 (H := NumF)) = nneg1 (H := NR).
Proof. unfold nneg1. apply lit_real; lia. Qed.
Lemma vneg_real e E v : (-1022 <= e)%Z -> (E <= 1020)%Z -> fitv e E v ->
  fitv e E (vneg (N := NumF) v) /\ rv (vneg (N := NumF) v) = vneg (N := NR) (rv v).
Proof.
  intros L1 L2 HV. destruct (vscale_real e E 0 0 v (nneg1 (H := NumF))) as [F R]; try assumption; try lia; [apply fits_neg_one|].
  rewrite !Z.add_0_r in F. rewrite nneg1_real in R. split; assumption.
Qed.
Lemma vsub_real e E a b : (-1022 <= e)%Z -> (E <= 1019)%Z -> fitv e E a -> fitv e E b ->
  fitv e (E + 1) (vsub (N := NumF) a b) /\ rv (vsub (N := NumF) a b) = vsub (N := NR) (rv a) (rv b).
Proof.
  intros L1 L2 HA HB. destruct (vneg_real e E b) as [F R]; try assumption; try lia. unfold vsub.
  destruct (vadd_real e E a (vneg (N := NumF) b)) as [G Q]; try assumption. split; [exact G|]. rewrite Q, R. reflexivity.
Qed.
Lemma vfill_fits e E n x : fits e E x -> fitv e E (vfill n x).
Proof. intros H. unfold vfill. apply Forall_forall. intros y I. apply repeat_spec in I. subst y. exact H. Qed.
Lemma vfill_real n x : rv (vfill n x) = vfill n (real_of x).
Proof. unfold vfill. apply map_repeat. Qed.

(** *** Boxes *)
Section Box.
Variable d : nat.

Lemma sides_real e E l : (-1000 <= e)%Z -> (E <= 990)%Z -> fits e E l ->
  fitv (e - 1) E (vscale (N := NumF) (vfill d (n1 (Num := NumF))) (nhalf (H := NumF) l)) /\
  rv (vscale (N := NumF) (vfill d (n1 (Num := NumF))) (nhalf (H := NumF) l)) = vscale (N := NR) (vfill d 1) (nhalf (H := NR) (real_of l)).
Proof.
  intros L1 L2 HL. destruct (fits_half e E l) as [F R]; try assumption; try lia.
  destruct (vscale_real 0 0 (e - 1) E (vfill d (n1 (Num := NumF))) (nhalf (H := NumF) l)) as [G Q]; try assumption; try lia; [apply vfill_fits, fits_one|].
  rewrite !Z.add_0_l in G. split; [exact G|]. rewrite Q, R, vfill_real. cbn [n1 NumF]. rewrite (proj2 one_real). reflexivity.
Qed.
Lemma box_lower_real e E c l : (-1000 <= e)%Z -> (E <= 990)%Z -> fitv e E c -> fits e E l ->
  fitv (e - 1) (E + 1) (box_lower (N := NumF) d c l) /\ rv (box_lower (N := NumF) d c l) = box_lower (N := NR) d (rv c) (real_of l).
Proof.
  intros L1 L2 HC HL. destruct (sides_real e E l L1 L2 HL) as [F R]. unfold box_lower.
  destruct (vsub_real (e - 1) E c (vscale (N := NumF) (vfill d (n1 (Num := NumF))) (nhalf (H := NumF) l))) as [G Q]; try assumption; try lia.
  - apply (fitv_weaken e E); try lia. exact HC.
  - split; [exact G|]. rewrite Q, R. reflexivity.
Qed.
Lemma box_upper_real e E c l : (-1000 <= e)%Z -> (E <= 990)%Z -> fitv e E c -> fits e E l ->
  fitv (e - 1) (E + 1) (box_upper (N := NumF) d c l) /\ rv (box_upper (N := NumF) d c l) = box_upper (N := NR) d (rv c) (real_of l).
Proof.
  intros L1 L2 HC HL. destruct (sides_real e E l L1 L2 HL) as [F R]. unfold box_upper.
  destruct (vadd_real (e - 1) E c (vscale (N := NumF) (vfill d (n1 (Num := NumF))) (nhalf (H := NumF) l))) as [G Q]; try assumption; try lia.
  - apply (fitv_weaken e E); try lia. exact HC.
  - split; [exact G|]. rewrite Q, R. reflexivity.
Qed.
Lemma nmin_real e E x y : fits e E x -> fits e E y -> fits e E (nmin (H := NumF) x y) /\ real_of (nmin (H := NumF) x y) = nmin (H := NR) (real_of x) (real_of y).
Proof.
  intros HX HY. unfold nmin. cbn [nltb NumF NumRnd]. rewrite ltb_real by (try apply HX; apply HY). destruct (Rltb _ _); split; try assumption; reflexivity.
Qed.
Lemma gt0_real v i : finv v -> ngtb (H := NumF) (vget (N := NumF) v i) (n0 (Num := NumF)) = ngtb (H := NR) (vget (N := NR) (rv v) i) (n0 (Num := NR)).
Proof.
  intros H. unfold ngtb. cbn [nltb n0 NumF NumRnd]. rewrite ltb_real by (try apply zero_real; apply vget_fin, H). rewrite vget_real, (proj2 zero_real). reflexivity.
Qed.
Lemma adjacent_real e E c1 l1 c2 l2 : (-1000 <= e)%Z -> (E <= 990)%Z -> fitv e E c1 -> fits e E l1 -> fitv e E c2 -> fits e E l2 ->
  adjacent (N := NumF) d c1 l1 c2 l2 = adjacent (N := NR) d (rv c1) (real_of l1) (rv c2) (real_of l2).
Proof.
  intros L1 L2 H1 H2 H3 H4. unfold adjacent.
  destruct (box_lower_real e E c1 l1 L1 L2 H1 H2) as [A1 B1]. destruct (box_upper_real e E c1 l1 L1 L2 H1 H2) as [A2 B2].
  destruct (box_lower_real e E c2 l2 L1 L2 H3 H4) as [A3 B3]. destruct (box_upper_real e E c2 l2 L1 L2 H3 H4) as [A4 B4].
  destruct (nmin_real e E l1 l2 H2 H4) as [M MR]. destruct (fits_half e E _ ltac:(lia) ltac:(lia) M) as [T TR].
  set (tol := vfill d (nhalf (H := NumF) (nmin (H := NumF) l1 l2))).
  assert (TF : fitv (e - 1) (E + 1 + 1) tol) by (apply vfill_fits; apply (fits_weaken (e - 1) E); try lia; exact T).
  assert (TT : rv tol = vfill d (nhalf (H := NR) (nmin (H := NR) (real_of l1) (real_of l2)))) by (unfold tol; rewrite vfill_real, TR, MR; reflexivity).
  destruct (vsub_real (e - 1) (E + 1) _ _ ltac:(lia) ltac:(lia) A3 A2) as [F1 R1]. destruct (vsub_real (e - 1) (E + 1) _ _ ltac:(lia) ltac:(lia) A1 A4) as [F2 R2].
  destruct (vsub_real (e - 1) (E + 1 + 1) _ _ ltac:(lia) ltac:(lia) F1 TF) as [G1 Q1]. destruct (vsub_real (e - 1) (E + 1 + 1) _ _ ltac:(lia) ltac:(lia) F2 TF) as [G2 Q2].
  rewrite <- B1, <- B2, <- B3, <- B4, <- TT, <- R1, <- R2, <- Q1, <- Q2. apply fitv_fin in G1, G2.
  induction (seq 0 d) as [|i s IH]; [reflexivity|]. cbn [forallb]. rewrite IH. rewrite !gt0_real by assumption. reflexivity.
Qed.
Lemma contains_real e E c l p : (-1000 <= e)%Z -> (E <= 990)%Z -> fitv e E c -> fits e E l -> finv p ->
  contains (N := NumF) d c l p = contains (N := NR) d (rv c) (real_of l) (rv p).
Proof.
  intros L1 L2 HC HL HP. unfold contains. destruct (box_lower_real e E c l L1 L2 HC HL) as [A1 B1]. destruct (box_upper_real e E c l L1 L2 HC HL) as [A2 B2].
  rewrite <- B1, <- B2. apply fitv_fin in A1, A2. induction (seq 0 d) as [|i s IH]; [reflexivity|]. cbn [forallb]. rewrite IH.
  unfold ngtb. cbn [nltb NumF NumRnd]. rewrite !ltb_real by (apply vget_fin; assumption). rewrite !vget_real. reflexivity.
Qed.
Lemma fold_left_ext {A B} (f g : A -> B -> A) l : (forall x y, f x y = g x y) -> forall a, fold_left f l a = fold_left g l a.
Proof. intros H. induction l as [|y l IH]; intros a; [reflexivity|]. cbn [fold_left]. rewrite H. apply IH. Qed.
Lemma get_orthant_real c p : finv c -> finv p -> get_orthant (N := NumF) d c p = get_orthant (N := NR) d (rv c) (rv p).
Proof.
  intros HC HP. unfold get_orthant. apply fold_left_ext. intros a i.
  unfold ngeb. cbn [nleb NumF NumRnd]. rewrite leb_real by (apply vget_fin; assumption). rewrite !vget_real. reflexivity.
Qed.
Lemma child_dir_real i : fitv 0 0 (child_dir (N := NumF) d i) /\ rv (child_dir (N := NumF) d i) = child_dir (N := NR) d i.
Proof.
  unfold child_dir. induction (seq 0 d) as [|j s IH]; [split; [constructor|reflexivity]|]. cbn [map]. destruct IH as [IF IR]. rewrite IR. destruct (Nat.testbit i _).
  - cbn [n1 NumF NumRnd]. split; [constructor; [apply fits_one|exact IF]|]. rewrite (proj2 one_real). reflexivity.
  - split; [constructor; [apply fits_neg_one|exact IF]|]. rewrite nneg1_real. reflexivity.
Qed.
Lemma child_center_real e E c l i : (-1000 <= e)%Z -> (E <= 990)%Z -> fitv e E c -> fits e E l ->
  fitv (e - 1) (E + 1) (child_center (N := NumF) d c l i) /\ rv (child_center (N := NumF) d c l i) = child_center (N := NR) d (rv c) (real_of l) i.
Proof.
  intros L1 L2 HC HL. destruct (fits_half e E l) as [F R]; try assumption; try lia. destruct (child_dir_real i) as [DF DR]. unfold child_center.
  destruct (vscale_real 0 0 (e - 1) E (child_dir (N := NumF) d i) (nhalf (H := NumF) l)) as [G Q]; try assumption; try lia.
  rewrite !Z.add_0_l in G.
  destruct (vadd_real (e - 1) E c (vscale (N := NumF) (child_dir (N := NumF) d i) (nhalf (H := NumF) l))) as [K S]; try assumption; try lia.
  - apply (fitv_weaken e E); try lia. exact HC.
  - split; [exact K|]. rewrite S, Q, R, DR. reflexivity.
Qed.

(** *** The bounding box *)
Notation ro := (option_map real_of).
Definition fito (e E : Z) (x : option float) : Prop := match x with Some y => fits e E y | None => True end.
Lemma range_step_real e E st p : fitv e E p -> Forall (fito e E) (fst st) -> Forall (fito e E) (snd st) ->
  Forall (fito e E) (fst (range_step (N := NumF) st p)) /\ Forall (fito e E) (snd (range_step (N := NumF) st p)) /\
  range_step (N := NR) (map ro (fst st), map ro (snd st)) (rv p) = (map ro (fst (range_step (N := NumF) st p)), map ro (snd (range_step (N := NumF) st p))).
Proof.
  destruct st as [lo hi]. cbn [fst snd]. intros HP HL HH. unfold range_step. cbn [fst snd].
  assert (A : forall q l, fitv e E q -> Forall (fito e E) l -> Forall (fito e E) (map2 (lower_step (N := NumF)) q l) /\
      map2 (lower_step (N := NR)) (rv q) (map ro l) = map ro (map2 (lower_step (N := NumF)) q l)).
  { intros q l HQ. revert l. induction HQ as [|x q X HQ IH]; intros l HLl; [split; [constructor|reflexivity]|].
    destruct HLl as [|y l Y HLl]; [split; [constructor|reflexivity]|]. destruct (IH l HLl) as [IF IR].
    change (map2 (lower_step (N := NumF)) (x :: q) (y :: l)) with (lower_step (N := NumF) x y :: map2 (lower_step (N := NumF)) q l).
    change (map2 (lower_step (N := NR)) (rv (x :: q)) (map ro (y :: l))) with (lower_step (N := NR) (real_of x) (ro y) :: map2 (lower_step (N := NR)) (rv q) (map ro l)).
    cbn [map]. rewrite IR. destruct y as [y|]; cbn [lower_step option_map].
    - cbn [nltb NumF NumRnd]. cbn [fito] in Y. rewrite ltb_real by (try apply X; apply Y). destruct (Rltb _ _); split; try (constructor; assumption); reflexivity.
    - cbn [nleb NumF NumRnd]. rewrite leb_real by apply X. destruct (Rleb _ _); split; try (constructor; [exact X|assumption]); try (constructor; [exact I|assumption]); reflexivity. }
  assert (B : forall q l, fitv e E q -> Forall (fito e E) l -> Forall (fito e E) (map2 (upper_step (N := NumF)) q l) /\
      map2 (upper_step (N := NR)) (rv q) (map ro l) = map ro (map2 (upper_step (N := NumF)) q l)).
  { intros q l HQ. revert l. induction HQ as [|x q X HQ IH]; intros l HLl; [split; [constructor|reflexivity]|].
    destruct HLl as [|y l Y HLl]; [split; [constructor|reflexivity]|]. destruct (IH l HLl) as [IF IR].
    change (map2 (upper_step (N := NumF)) (x :: q) (y :: l)) with (upper_step (N := NumF) x y :: map2 (upper_step (N := NumF)) q l).
    change (map2 (upper_step (N := NR)) (rv (x :: q)) (map ro (y :: l))) with (upper_step (N := NR) (real_of x) (ro y) :: map2 (upper_step (N := NR)) (rv q) (map ro l)).
    cbn [map]. rewrite IR. destruct y as [y|]; cbn [upper_step option_map].
    - unfold ngtb. cbn [nltb NumF NumRnd]. cbn [fito] in Y. rewrite ltb_real by (try apply X; apply Y). destruct (Rltb _ _); split; try (constructor; assumption); reflexivity.
    - cbn [nleb NumF NumRnd]. rewrite leb_real by apply X. destruct (Rleb _ _); split; try (constructor; [exact X|assumption]); try (constructor; [exact I|assumption]); reflexivity. }
  destruct (A p lo HP HL) as [F1 R1]. destruct (B p hi HP HH) as [F2 R2]. rewrite R1, R2. repeat split; assumption.
Qed.
Lemma raw_range_real e E pts : Forall (fitv e E) pts ->
  Forall (fito e E) (fst (raw_range (N := NumF) d pts)) /\ Forall (fito e E) (snd (raw_range (N := NumF) d pts)) /\
  raw_range (N := NR) d (map rv pts) = (map ro (fst (raw_range (N := NumF) d pts)), map ro (snd (raw_range (N := NumF) d pts))).
Proof.
  intros HP. unfold raw_range.
  assert (G : forall st st', Forall (fito e E) (fst st) -> Forall (fito e E) (snd st) -> st' = (map ro (fst st), map ro (snd st)) ->
    Forall (fito e E) (fst (fold_left (range_step (N := NumF)) pts st)) /\ Forall (fito e E) (snd (fold_left (range_step (N := NumF)) pts st)) /\
    fold_left (range_step (N := NR)) (map rv pts) st' = (map ro (fst (fold_left (range_step (N := NumF)) pts st)), map ro (snd (fold_left (range_step (N := NumF)) pts st)))).
  { induction HP as [|p pts P HP IH]; intros st st' A B ->; [repeat split; assumption|]. cbn [fold_left map].
    destruct (range_step_real e E st p P A B) as (F1 & F2 & R). apply IH; assumption. }
  assert (N : Forall (fito e E) (repeat None d)) by (apply Forall_forall; intros x X; apply repeat_spec in X; subst x; exact I).
  apply G; try exact N. cbn [fst snd]. rewrite map_repeat. reflexivity.
Qed.
Lemma all_some_real e E l : Forall (fito e E) l -> match all_some l with Some v => fitv e E v | None => True end /\ all_some (map ro l) = option_map rv (all_some l).
Proof.
  intros H. induction H as [|x l X H IH]; [split; [constructor|reflexivity]|]. destruct IH as [IF IR]. cbn [all_some map]. destruct x as [x|]; [|split; [exact I|reflexivity]].
  cbn [option_map]. rewrite IR. destruct (all_some l) as [v|]; [|split; [exact I|reflexivity]]. split; [constructor; assumption|reflexivity].
Qed.
Lemma pad_real e E v : (-900 <= e)%Z -> (E <= 900)%Z -> fitv e E v -> fitv (e - 69) (E + 1) (pad (N := NumF) v) /\ rv (pad (N := NumF) v) = pad (N := NR) (rv v).
Proof.
  intros L1 L2 HV. unfold pad. destruct (fits_lit 1 100000 (-17) 0 ltac:(lia) ltac:(lia)) as [F R].
  { unfold Rdiv. rewrite Rabs_pos_eq by lra. simpl. lra. }
  destruct (vscale_real e E (-17 - 52) 0 v (nlit (Num := NumF) 1 100000)) as [G Q]; try assumption; try lia.
  destruct (vadd_real (e - 69) E v (vscale (N := NumF) v (nlit (Num := NumF) 1 100000))) as [K S]; try lia.
  - apply (fitv_weaken e E); try lia. exact HV.
  - apply (fitv_weaken (e + (-17 - 52)) (E + 0)); try lia. exact G.
  - split; [exact K|]. rewrite S, Q, R. reflexivity.
Qed.
Lemma max_element_real e E v : fitv e E v -> match max_element (N := NumF) v with Some m => fits e E m | None => True end /\
  max_element (N := NR) (rv v) = ro (max_element (N := NumF) v).
Proof.
  intros H. destruct H as [|x v X H]; [split; [exact I|reflexivity]|]. cbn [max_element map option_map].
  assert (G : forall a, fits e E a -> fits e E (fold_left (fun m y => if nltb (Num := NumF) m y then y else m) v a) /\
    fold_left (fun m y => if nltb (Num := NR) m y then y else m) (rv v) (real_of a) = real_of (fold_left (fun m y => if nltb (Num := NumF) m y then y else m) v a)).
  { clear X. induction H as [|y v Y H IH]; intros a A; [split; [exact A|reflexivity]|]. cbn [fold_left map]. cbn [nltb NumF NumRnd].
    rewrite ltb_real by (try apply A; apply Y). destruct (Rltb _ _); apply IH; assumption. }
  destruct (G x X) as [F R]. rewrite R. split; [exact F|reflexivity].
Qed.
Definition real_box (b : list float * float) : list R * R := (rv (fst b), real_of (snd b)).
Lemma root_box_real e E pts : (-800 <= e)%Z -> (E <= 800)%Z -> Forall (fitv e E) pts ->
  root_box (N := NR) d (map rv pts) = option_map real_box (root_box (N := NumF) d pts) /\
  forall c l, root_box (N := NumF) d pts = Some (c, l) -> fitv (e - 122) (E + 2) c /\ fits (e - 122) (E + 2) l.
Proof.
  intros L1 L2 HP. unfold root_box, data_range. destruct (raw_range_real e E pts HP) as (F1 & F2 & R). rewrite R. cbn [fst snd].
  destruct (all_some_real e E _ F1) as [A1 B1]. destruct (all_some_real e E _ F2) as [A2 B2]. rewrite B1, B2.
  destruct (all_some (fst (raw_range (N := NumF) d pts))) as [lo|]; [|split; [reflexivity|discriminate]].
  destruct (all_some (snd (raw_range (N := NumF) d pts))) as [hi|]; [|split; [reflexivity|discriminate]]. cbn [option_map].
  destruct (pad_real e E lo ltac:(lia) ltac:(lia) A1) as [P1 Q1]. destruct (pad_real e E hi ltac:(lia) ltac:(lia) A2) as [P2 Q2]. rewrite <- Q1, <- Q2.
  set (lo' := pad (N := NumF) lo) in *. set (hi' := pad (N := NumF) hi) in *.
  destruct (vsub_real (e - 69) (E + 1) hi' lo' ltac:(lia) ltac:(lia) P2 P1) as [S1 S2]. rewrite <- S2.
  destruct (max_element_real _ _ _ S1) as [M1 M2]. rewrite M2. destruct (max_element (N := NumF) (vsub (N := NumF) hi' lo')) as [l|]; [|split; [reflexivity|discriminate]].
  cbn [option_map]. destruct (vadd_real (e - 69) (E + 1) lo' hi' ltac:(lia) ltac:(lia) P1 P2) as [V1 V2].
  destruct (fits_lit 1 2 (-1) 0 ltac:(lia) ltac:(lia)) as [H1 H2]. { unfold Rdiv. rewrite Rabs_pos_eq by lra. simpl. lra. }
  destruct (vscale_real (e - 69) (E + 1 + 1) (-1 - 52) 0 _ _ ltac:(lia) ltac:(lia) V1 H1) as [W1 W2].
  split.
  - unfold real_box. cbn [fst snd]. rewrite W2, V2, H2. reflexivity.
  - intros c l' Q. injection Q as <- <-. split.
    + apply (fitv_weaken (e - 69 + (-1 - 52)) (E + 1 + 1 + 0)); try lia. exact W1.
    + apply (fits_weaken (e - 69) (E + 1 + 1)); try lia. exact M1.
Qed.

(** *** The indices of a leaf box *)
Lemma neqb_real x y : fin x -> fin y -> neqb (N := NumF) x y = neqb (N := NR) (real_of x) (real_of y).
Proof. intros X Y. unfold neqb. cbn [nleb NumF NumRnd]. rewrite !leb_real by assumption. reflexivity. Qed.
Lemma omapM_ext {A B} (f g : A -> outcome B) l : (forall x, In x l -> f x = g x) -> omapM f l = omapM g l.
Proof.
  induction l as [|x l IH]; intros H; [reflexivity|]. cbn [omapM]. rewrite (H x (or_introl eq_refl)). destruct (g x); try reflexivity.
  cbn [bind]. rewrite IH by (intros y Y; apply H; right; exact Y). reflexivity.
Qed.
Lemma leaf_box_indices_real e E h c l p : (-450 <= e)%Z -> (E <= 300)%Z -> (0 <= E)%Z -> fitv e E c -> fits e E l -> fitv e E p ->
  leaf_box_indices (N := NumF) d h c l p = leaf_box_indices (N := NR) d h (rv c) (real_of l) (rv p).
Proof.
  intros L1 L2 L3 HC HL HP. unfold leaf_box_indices. unfold boxes_per_dim, to_u32.
  destruct ((0 <=? 2 ^ Z.of_nat h) && (2 ^ Z.of_nat h <? u32_max))%Z eqn:HB; [|reflexivity]. cbn [bind].
  apply andb_true_iff in HB. destruct HB as [_ HB]. apply Z.ltb_lt in HB. unfold u32_max in HB.
  cbn [n0 NumF]. rewrite neqb_real by (try apply HL; apply zero_real). rewrite (proj2 zero_real). cbn [n0 NumRnd].
  destruct (neqb (N := NR) (real_of l) 0) eqn:Z0; [reflexivity|].
  assert (NZ : real_of l <> 0).
  { intros Q. rewrite Q in Z0. unfold neqb in Z0. cbn [nleb NumRnd] in Z0. assert (T : Rleb 0 0 = true) by (apply Rleb_true; lra). rewrite T in Z0. discriminate. }
  destruct (box_lower_real e E c l ltac:(lia) ltac:(lia) HC HL) as [A1 B1].
  destruct (vsub_real (e - 1) (E + 1) p (box_lower (N := NumF) d c l)) as [S1 S2]; try lia; [apply (fitv_weaken e E); try lia; exact HP|exact A1|].
  destruct (fits_recip e E l ltac:(lia) ltac:(lia) HL NZ) as [R1 R2].
  destruct (vscale_real (e - 1) (E + 1 + 1) (- E - 52) (- e) _ _ ltac:(lia) ltac:(lia) S1 R1) as [V1 V2].
  cbn [n1 ndiv NumF NumRnd]. rewrite <- B1, <- S2, <- R2, <- V2. apply omapM_ext. intros i _.
  set (n := (2 ^ Z.of_nat h)%Z) in *. assert (N1 : (1 <= n)%Z) by (unfold n; assert (0 < 2 ^ Z.of_nat h)%Z by (apply Z.pow_pos_nonneg; lia); lia).
  assert (W1 := vget_fits _ _ _ i V1).
  destruct (fits_lit n 1 0 32 ltac:(lia) ltac:(lia)) as [K1 K2].
  { unfold Rdiv. rewrite Rinv_1, Rmult_1_r. rewrite Rabs_pos_eq by (apply IZR_le; lia). split; [apply IZR_le; lia|]. change (pw 32) with (IZR 4294967296). apply IZR_le. lia. }
  destruct (fits_mul (e - 1 + (- E - 52)) (E + 1 + 1 + - e) (0 - 52) 32 _ _ ltac:(lia) ltac:(lia) W1 K1) as [M1 M2].
  cbn [nfloor nmul NumF NumRnd]. rewrite floor_real by apply M1. cbn [nmul NumF] in M2. rewrite M2, vget_real, K2. reflexivity.
Qed.
End Box.
