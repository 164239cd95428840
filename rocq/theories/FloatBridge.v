(** The adaptive tree built in IEEE doubles is the one of the model with rounded operations. *)
From Coq Require Import Reals List Bool ZArith Arith Lia Lra.
From Flocq Require Import Core.
From Verif Require Import Num Outcome Vec Orthtree AdaptiveTree BalancedTree VecProofs RoundedCases RoundedTree FloatCases FloatFit FloatGeometry FloatSpec.
From Coq Require Import Floats.
Import ListNotations.
Local Open Scope R_scope.

Lemma magnitude_fits k x : (0 <= k)%Z -> magnitude k x -> fits (- k - 52) k x.
Proof.
  intros K [F H]. split; [exact F|]. destruct H as [H|H].
  - rewrite H. split; [exists 0%Z; ring|]. rewrite Rabs_R0. apply bpow_ge_0.
  - split; [|apply H].
    assert (G : double_round (real_of x) = real_of x).
    { unfold double_round. apply round_generic; [typeclasses eauto|]. apply (generic_format_FLX_FLT radix2 (-1074) 53).
      exact (BinarySingleNaN.generic_format_B2R prec emax (PrimFloat.Prim2B x)). }
    rewrite <- G. apply round_fine, H.
Qed.
Lemma fits_magnitude e E k x : (- k <= e)%Z -> (E <= k)%Z -> fits e E x -> magnitude k x.
Proof.
  intros L1 L2 (F & M & B). split; [exact F|]. destruct (multiple_big e _ M) as [Z|G]; [left; exact Z|right]. split.
  - eapply Rle_trans; [|exact G]. apply bpow_le. exact L1.
  - eapply Rle_trans; [exact B|]. apply bpow_le. exact L2.
Qed.

(** *** Generic facts about loops *)
Lemma find_map {A B} (f : A -> B) p q l : (forall x, p (f x) = q x) -> find p (map f l) = option_map f (find q l).
Proof. intros H. induction l as [|x l IH]; [reflexivity|]. cbn [map find]. rewrite H. destruct (q x); [reflexivity|exact IH]. Qed.
Lemma filter_map_comm {A B} (f : A -> B) p q l : (forall x, p (f x) = q x) -> filter p (map f l) = map f (filter q l).
Proof. intros H. induction l as [|x l IH]; [reflexivity|]. cbn [map filter]. rewrite H. destruct (q x); cbn [map]; rewrite IH; reflexivity. Qed.
Lemma ofold_ext {A S} (f g : S -> A -> outcome S) l : (forall s a, In a l -> f s a = g s a) -> forall s, ofold f l s = ofold g l s.
Proof.
  intros H. induction l as [|a l IH]; intros s; [reflexivity|]. cbn [ofold]. rewrite (H s a (or_introl eq_refl)). destruct (g s a); try reflexivity.
  cbn [bind]. apply IH. intros s' a' I. apply H. right. exact I.
Qed.
Lemma bfs_ext {P St} (c1 c2 : St -> P -> list P) (p1 p2 : P -> St -> outcome St) : (forall s p, c1 s p = c2 s p) -> (forall p s, p1 p s = p2 p s) ->
  forall fuel q s, bfs c1 p1 fuel q s = bfs c2 p2 fuel q s.
Proof.
  intros HC HP. induction fuel as [|fuel IH]; intros q s; (destruct q as [|p q]; [reflexivity|]); cbn [bfs]; [reflexivity|]. rewrite HP. destruct (p2 p s); try reflexivity.
  cbn [bind]. rewrite HC. apply IH.
Qed.

(** *** Boxes in range: those of depth [k], when the root box is made from ordinary coordinates. *)
Section Good.
Context {Src : Type}.
Variable d : nat.
Notation nodeF := (@anode float Src).
Notation nodeR := (@anode R Src).

Definition ek (k : nat) : Z := (-374 - 2 * Z.of_nat k)%Z.
Definition Ek (k : nat) : Z := (202 + Z.of_nat k)%Z.
Definition good (n : nodeF) : Prop := length (an_center n) = d /\ fitv (ek (an_depth n)) (Ek (an_depth n)) (an_center n) /\
  fits (ek (an_depth n)) (Ek (an_depth n)) (an_len n) /\ (an_depth n <= 60)%nat.
Definition okp (x : list float) : Prop := finv x.

Lemma good_fits n k : good n -> (an_depth n <= k)%nat -> fitv (ek k) (Ek k) (an_center n) /\ fits (ek k) (Ek k) (an_len n).
Proof.
  intros (_ & A & B & _) L. unfold ek, Ek in *. split; [eapply fitv_weaken|eapply fits_weaken]; try eassumption; lia.
Qed.
Lemma good_fin n : good n -> finv (an_center n).
Proof. intros (_ & A & _). eapply fitv_fin. exact A. Qed.
Lemma good_adjacent n m : good n -> good m -> nodes_adjacent (N := NumF) d n m = nodes_adjacent (N := NR) d (real_node n) (real_node m).
Proof.
  intros HN HM. unfold nodes_adjacent. cbn [an_center an_len real_node]. destruct (good_fits n 60 HN) as [A1 A2]; [apply HN|]. destruct (good_fits m 60 HM) as [B1 B2]; [apply HM|].
  apply (adjacent_real d (ek 60) (Ek 60)); try assumption; unfold ek, Ek; lia.
Qed.
Lemma good_contains n x : good n -> finv x -> contains (N := NumF) d (an_center n) (an_len n) x = contains (N := NR) d (map real_of (an_center n)) (real_of (an_len n)) (map real_of x).
Proof.
  intros HN HX. destruct (good_fits n 60 HN) as [A1 A2]; [apply HN|]. apply (contains_real d (ek 60) (Ek 60)); try assumption; unfold ek, Ek; lia.
Qed.
Lemma vsub_length {T} (N : Num T) (a b : list T) : length (vsub a b) = Nat.min (length a) (length b).
Proof. unfold vsub, vadd, vneg, vscale. rewrite length_map2, map_length. reflexivity. Qed.
Lemma good_close hypF hyp n m : norm_of d hypF hyp -> good n -> good m ->
  too_close (N := NumF) (D := DistF hypF) n m = too_close (N := NR) (D := DistRnd hyp) (real_node n) (real_node m).
Proof.
  intros HH HN HM. unfold too_close. cbn [an_center an_len real_node norm_ltb DistF DistRnd].
  destruct (good_fits n 60 HN) as [A1 A2]; [apply HN|]. destruct (good_fits m 60 HM) as [B1 B2]; [apply HM|]. unfold ek, Ek in *.
  destruct (vsub_real (-374 - 2 * Z.of_nat 60) (202 + Z.of_nat 60) _ _ ltac:(lia) ltac:(lia) A1 B1) as [V1 V2].
  destruct (HH (vsub (N := NumF) (an_center n) (an_center m))) as [F R].
  { rewrite vsub_length. destruct HN as [-> _]. destruct HM as [-> _]. apply Nat.min_id. }
  { intros y Y. unfold fitv in V1. rewrite Forall_forall in V1. apply (fits_magnitude (-374 - 2 * Z.of_nat 60) (202 + Z.of_nat 60 + 1)); try lia. apply V1, Y. }
  destruct (fits_lit 199 100 0 1 ltac:(lia) ltac:(lia)) as [L1 L2]. { rewrite Rabs_pos_eq by lra. simpl. lra. }
  destruct (fits_mul (0 - 52) 1 (-374 - 2 * Z.of_nat 60) (202 + Z.of_nat 60) _ _ ltac:(lia) ltac:(lia) L1 A2) as [M1 M2].
  cbn [nmul NumF NumRnd]. rewrite ltb_real by (try exact F; apply M1). rewrite R, M2, V2, L2. reflexivity.
Qed.

(** *** Construction of the adaptive tree *)
Variable pos : Src -> list float.
Notation rpos := (real_pos pos).

Lemma update_nth_Forall {A} (P : A -> Prop) k f l : Forall P l -> (forall x, P x -> P (f x)) -> Forall P (update_nth k f l).
Proof.
  intros H HF. unfold update_nth. apply Forall_forall. intros y Y. apply in_map_iff in Y. destruct Y as ([i x] & <- & I). cbn [fst snd]. apply in_combine_r in I.
  rewrite Forall_forall in H. destruct (Nat.eqb i k); [apply HF|]; apply H, I.
Qed.
Lemma refine_orthant_real c ss : finv c -> Forall (fun s => finv (pos s)) ss ->
  refine_orthant (N := NR) d rpos (map real_of c) ss = refine_orthant (N := NumF) d pos c ss /\
  Forall (Forall (fun s => finv (pos s))) (refine_orthant (N := NumF) d pos c ss).
Proof.
  intros HC HS. unfold refine_orthant.
  assert (G : forall acc, Forall (Forall (fun s => finv (pos s))) acc ->
    fold_left (fun acc s => update_nth (get_orthant (N := NR) d (map real_of c) (rpos s)) (fun l => l ++ [s]) acc) ss acc =
    fold_left (fun acc s => update_nth (get_orthant (N := NumF) d c (pos s)) (fun l => l ++ [s]) acc) ss acc /\
    Forall (Forall (fun s => finv (pos s))) (fold_left (fun acc s => update_nth (get_orthant (N := NumF) d c (pos s)) (fun l => l ++ [s]) acc) ss acc)).
  { induction HS as [|s ss S HS IH]; intros acc HA; [split; [reflexivity|exact HA]|]. cbn [fold_left]. unfold real_pos at 2. rewrite <- get_orthant_real by assumption.
    apply IH. apply update_nth_Forall; [exact HA|]. intros x X. apply Forall_app. split; [exact X|constructor; [exact S|constructor]]. }
  apply G. apply Forall_forall. intros x X. apply repeat_spec in X. subst x. constructor.
Qed.

Definition real_pair (ns : nodeF * list Src) : nodeR * list Src := (real_node (fst ns), snd ns).
Definition gpair (ns : nodeF * list Src) : Prop := good (fst ns) /\ Forall (fun s => finv (pos s)) (snd ns).
Lemma child_length {T} (N : Num T) (c : list T) l i : length c = d -> length (child_center d c l i) = d.
Proof. intros H. unfold child_center, vadd, vscale, child_dir. rewrite length_map2, !map_length, seq_length, H. apply Nat.min_id. Qed.
(** One child of a box. *)
Lemma child_good (nd : nodeF) i leaf ss : good nd -> (an_depth nd < 60)%nat ->
  let l := nhalf (H := NumF) (an_len nd) in
  good (ANode (i :: an_addr nd) (child_center (N := NumF) d (an_center nd) l i) l (an_depth nd + 1) leaf ss) /\
  map real_of (child_center (N := NumF) d (an_center nd) l i) = child_center (N := NR) d (map real_of (an_center nd)) (nhalf (H := NR) (real_of (an_len nd))) i /\
  real_of l = nhalf (H := NR) (real_of (an_len nd)).
Proof.
  intros (A & B & C & D) K l. set (k := an_depth nd) in *. unfold good. cbn [an_center an_len an_depth]. unfold ek, Ek in *.
  destruct (fits_half (-374 - 2 * Z.of_nat k) (202 + Z.of_nat k) _ ltac:(lia) ltac:(lia) C) as [F R]. fold l in F, R.
  destruct (child_center_real d (-374 - 2 * Z.of_nat k - 1) (202 + Z.of_nat k) (an_center nd) l i) as [F2 R2]; try lia; try assumption.
  - eapply fitv_weaken; try eassumption; lia.
  - rewrite R in R2. split; [|split; [exact R2|exact R]]. split; [apply child_length, A|]. split; [|split; [|lia]].
    + eapply fitv_weaken; [| |exact F2]; lia.
    + eapply fits_weaken; [| |exact F]; lia.
Qed.
Lemma make_child_real cap nd i css : good nd -> (an_depth nd < 60)%nat -> Forall (fun s => finv (pos s)) css ->
  make_child (N := NR) d cap (real_node nd) i css = real_pair (make_child (N := NumF) d cap nd i css) /\
  gpair (make_child (N := NumF) d cap nd i css) /\ an_depth (fst (make_child (N := NumF) d cap nd i css)) = (an_depth nd + 1)%nat.
Proof.
  intros G K HS. unfold make_child. cbn [an_len an_center an_addr an_depth real_node]. destruct (Nat.ltb cap (length css)).
  - destruct (child_good nd i false [] G K) as (A & B & C). rewrite <- B, <- C. split; [reflexivity|]. split; [split; [exact A|exact HS]|reflexivity].
  - destruct (child_good nd i true css G K) as (A & B & C). rewrite <- B, <- C. split; [reflexivity|]. split; [split; [exact A|constructor]|reflexivity].
Qed.
Lemma refine_node_real cap ns : gpair ns -> (an_depth (fst ns) < 60)%nat ->
  refine_node (N := NR) d rpos cap (real_pair ns) = map real_pair (refine_node (N := NumF) d pos cap ns) /\
  Forall (fun x => gpair x /\ an_depth (fst x) = (an_depth (fst ns) + 1)%nat) (refine_node (N := NumF) d pos cap ns).
Proof.
  destruct ns as [nd ss]. intros [G HS] K. cbn [fst snd] in *. unfold refine_node, real_pair. cbn [fst snd an_center real_node].
  destruct (refine_orthant_real (an_center nd) ss (good_fin nd G) HS) as [E F]. rewrite E. rewrite map_map. clear E.
  assert (H : forall ic, In ic (combine (seq 0 (n_children d)) (refine_orthant (N := NumF) d pos (an_center nd) ss)) -> Forall (fun s => finv (pos s)) (snd ic)).
  { intros [i c] I. apply in_combine_r in I. rewrite Forall_forall in F. apply F, I. }
  split.
  - apply map_ext_in. intros ic I. apply (make_child_real cap nd (fst ic) (snd ic) G K (H ic I)).
  - apply Forall_forall. intros x X. apply in_map_iff in X. destruct X as (ic & <- & I). apply (make_child_real cap nd (fst ic) (snd ic) G K (H ic I)).
Qed.
Lemma refine_level_real cap k cur : (k < 60)%nat -> Forall (fun ns => gpair ns /\ an_depth (fst ns) = k) cur ->
  refine_level (N := NR) d rpos cap (map real_pair cur) = map real_pair (refine_level (N := NumF) d pos cap cur) /\
  Forall (fun ns => gpair ns /\ an_depth (fst ns) = S k) (refine_level (N := NumF) d pos cap cur).
Proof.
  intros K H. unfold refine_level. induction H as [|ns cur [G D] H IH]; [split; [reflexivity|constructor]|]. cbn [map flat_map]. destruct IH as [I1 I2].
  destruct (refine_node_real cap ns G) as [E F]; [lia|]. rewrite I1, E, map_app. split; [reflexivity|]. apply Forall_app. split; [|exact I2].
  eapply Forall_impl; [|exact F]. intros x [X Y]. split; [exact X|lia].
Qed.
Definition gtree (t : @atree float Src) : Prop := forall n, In n (heap t) -> good n.
Lemma build_loop_real cap : forall fuel k cur nodes leaves, (k + fuel <= 60)%nat -> Forall (fun ns => gpair ns /\ an_depth (fst ns) = k) cur ->
  Forall (Forall good) nodes -> Forall (Forall good) leaves ->
  build_loop (N := NR) d rpos cap fuel k (map real_pair cur) (map (map real_node) nodes) (map (map real_node) leaves) =
    option_map real_atree (build_loop (N := NumF) d pos cap fuel k cur nodes leaves) /\
  forall t, build_loop (N := NumF) d pos cap fuel k cur nodes leaves = Some t -> Forall (Forall good) (at_nodes t) /\ Forall (Forall good) (at_leaves t) /\ (at_height t <= 60)%nat.
Proof.
  induction fuel as [|fuel IH]; intros k cur nodes leaves K HC HN HL; cbn [build_loop]; [split; [reflexivity|discriminate]|].
  destruct (refine_level_real cap k cur ltac:(lia) HC) as [E F]. rewrite E. set (ch := refine_level (N := NumF) d pos cap cur) in *.
  rewrite (filter_map_comm real_pair _ (fun ns => negb (an_leaf (fst ns)))) by reflexivity.
  rewrite (filter_map_comm real_pair _ (fun ns => an_leaf (fst ns))) by reflexivity.
  set (nx := filter (fun ns : nodeF * list Src => negb (an_leaf (fst ns))) ch). set (lv := filter (fun ns : nodeF * list Src => an_leaf (fst ns)) ch).
  assert (M : forall l, map fst (map real_pair l) = map real_node (map fst l)) by (intros l; rewrite !map_map; reflexivity). rewrite !M.
  assert (HX : Forall (fun ns => gpair ns /\ an_depth (fst ns) = S k) nx).
  { apply Forall_forall. intros x X. apply filter_In in X. rewrite Forall_forall in F. apply F, X. }
  assert (GF : forall l, (forall x, In x l -> In x ch) -> Forall good (map fst l)).
  { intros l Hl. apply Forall_forall. intros x X. apply in_map_iff in X. destruct X as (y & <- & Y). rewrite Forall_forall in F. apply F, Hl, Y. }
  assert (HL' : Forall (Forall good) (leaves ++ [map fst lv])).
  { apply Forall_app. split; [exact HL|]. constructor; [|constructor]. apply GF. intros x X. apply filter_In in X. apply X. }
  replace (map (map real_node) leaves ++ [map real_node (map fst lv)]) with (map (map real_node) (leaves ++ [map fst lv])) by (rewrite map_app; reflexivity).
  destruct nx as [|a nx'] eqn:EN.
  - cbn [map option_map]. split; [reflexivity|]. intros t Q. injection Q as <-. cbn [at_nodes at_leaves at_height]. split; [exact HN|]. split; [exact HL'|lia].
  - rewrite <- EN in *. destruct (map real_pair nx) as [|b r] eqn:EM; [rewrite EN in EM; discriminate|]. rewrite <- EM.
    replace (map (map real_node) nodes ++ [map real_node (map fst nx)]) with (map (map real_node) (nodes ++ [map fst nx])) by (rewrite map_app; reflexivity).
    apply IH; try assumption; [lia|]. apply Forall_app. split; [exact HN|]. constructor; [|constructor]. apply GF. intros x X. apply filter_In in X. apply X.
Qed.
End Good.
