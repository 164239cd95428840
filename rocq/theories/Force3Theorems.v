(** The three-dimensional forces: gradients, truncation errors, hypotheses on the input alone, points where the evaluation fails. *)
From Coq Require Import List Bool ZArith Arith Lia Lra Reals Permutation.
From Coquelicot Require Import Coquelicot.
From Verif Require Import Num Outcome Vec Orthtree AdaptiveTree TreeSpec VecProofs GeometrySpec GeometryProofs TreeGeometry
  AdaptiveProofs BuildProofs ListProofs ListContents RootBoxProofs TreeTheorems TreeTheorems2 TreeTheorems3 Tables Tables3D Expansion3D CAux TableProofs Table3DProofs FieldSpec Schedule Fields FieldProofs
  Exp2Forces FmmPasses PassProofs PassSteps PassTree PassSpec PassEval PassAgree FmmTree2DProofs FmmTheorems FmmApi FmmApiProofs
  BalancedTree BalancedSpec BalancedIndex BalancedAddr BalancedProofs BalancedTheorems BalancedFmm BalancedFmmProofs BalancedApiProofs
  SolidHarmonics Kernel3 Harmonics3D Exp3Loops Exp3Proofs Exp3Errors Exp3Theorems Exp3Cases Gradient3 KernelGradient3 KernelGradBounds3 Exp3Forces Exp3ForceErrors FmmTree3D FmmTree3DProofs FmmForce3DProofs Fmm3ApiProofs Fmm3Theorems Fmm3ForceProofs.
Import ListNotations.
Local Open Scope R_scope.

(** *** The force is minus the gradient of the potential *)
Lemma dp3_coord (c : list R) (x y z : R) : length c = 3%nat ->
  dp3 (fun t => p3 (vsub [t; y; z] c)) x (bv 0) /\ dp3 (fun t => p3 (vsub [x; t; z] c)) y (bv 1) /\ dp3 (fun t => p3 (vsub [x; y; t] c)) z (bv 2).
Proof.
  intros Hc. destruct c as [|a [|b [|e [|]]]]; try discriminate.
  assert (D1 : forall w t, is_derive (fun s : R => s - w) t 1) by (intros; auto_derive; [exact I|lra]).
  assert (D0 : forall w t, is_derive (fun s : R => w) t 0) by (intros; auto_derive; [exact I|lra]).
  assert (E : forall u v w, p3 (vsub [u; v; w] [a; b; e]) = (u - a, v - b, w - e)) by (intros; rewrite p3_sub by reflexivity; reflexivity).
  assert (K : forall (g h : R -> P3) t u, (forall s, g s = h s) -> dp3 h t u -> dp3 g t u).
  { intros g h t u Eg (A & B & C0). split; [|split].
    - apply (is_derive_ext (fun s => c1 (h s))); [intros; rewrite Eg; reflexivity|exact A].
    - apply (is_derive_ext (fun s => c2 (h s))); [intros; rewrite Eg; reflexivity|exact B].
    - apply (is_derive_ext (fun s => c3 (h s))); [intros; rewrite Eg; reflexivity|exact C0]. }
  split; [|split].
  - apply (K _ (fun t => (t - a, y - b, z - e))); [intros; apply E|]. split; [exact (D1 a x)|]. split; [exact (D0 (y - b) x)|exact (D0 (z - e) x)].
  - apply (K _ (fun t => (x - a, t - b, z - e))); [intros; apply E|]. split; [exact (D0 (x - a) y)|]. split; [exact (D1 b y)|exact (D0 (z - e) y)].
  - apply (K _ (fun t => (x - a, y - b, t - e))); [intros; apply E|]. split; [exact (D0 (x - a) z)|]. split; [exact (D0 (y - b) z)|exact (D1 e z)].
Qed.

Theorem le3_force_gradient p e (x y z : R) : wf3 p e -> ~ on_axis (s3_ctr e) [x; y; z] ->
  exists (U : R -> R -> R -> R) F, le3_force e [x; y; z] = Ok F /\ length F = 3%nat /\
    (forall x' y' z', le3_pot e [x'; y'; z'] = Ok (U x' y' z')) /\
    is_derive (fun t : R => U t y z) x (- nth 0 F 0) /\ is_derive (fun t : R => U x t z) y (- nth 1 F 0) /\ is_derive (fun t : R => U x y t) z (- nth 2 F 0).
Proof.
  intros Hw Hoff. destruct (wf3_form p e Hw) as [f Ef]. assert (HC : length (s3_ctr e) = 3%nat) by apply Hw. set (c := s3_ctr e) in *.
  apply okx3_iff in Hoff; [|exact HC|reflexivity]. unfold okx3 in Hoff.
  exists (fun a b d => - Re (lval3 (Z.of_nat p) f (p3 (vsub [a; b; d] c)))).
  eexists. split; [rewrite Ef; apply le3_force_ok; try assumption; [lia|reflexivity]|]. split; [reflexivity|].
  split; [intros; rewrite Ef; apply le3_pot_ok; [lia|exact HC|reflexivity]|].
  destruct (dp3_coord c x y z HC) as (A & B & D).
  split; [|split]; cbn [map seq nth]; apply (is_derive_opp (K := R_AbsRing) (V := R_NormedModule));
  [exact (proj1 (lval3_derive _ f _ _ _ A))|exact (proj1 (lval3_derive _ f _ _ _ B))|exact (proj1 (lval3_derive _ f _ _ _ D))].
Qed.
Lemma pn_zero_iff v : pn v = 0 -> c1 v = 0 /\ c2 v = 0 /\ c3 v = 0.
Proof.
  intros H. unfold pn in H. apply sqrt_eq_0 in H; [|unfold pdot; nra]. unfold pdot in H. split; [nra|split; nra].
Qed.
Lemma p3_sub_nz c x : length c = 3%nat -> length x = 3%nat -> x <> c -> pn (p3 (vsub x c)) <> 0.
Proof.
  intros Hc Hx N E. apply N. apply pn_zero_iff in E. rewrite p3_sub in E by assumption. destruct c as [|a [|b [|d [|]]]]; try discriminate. destruct x as [|a' [|b' [|d' [|]]]]; try discriminate.
  unfold psub, p3, c1, c2, c3, vget in E. cbn [fst snd nth] in E. destruct E as (E1 & E2 & E3). f_equal; [lra|]. f_equal; [lra|]. f_equal; lra.
Qed.
Theorem me3_force_gradient p e (x y z : R) : wf3 p e -> ~ on_axis (s3_ctr e) [x; y; z] ->
  exists (U : R -> R -> R -> R) F, me3_force e [x; y; z] = Ok F /\ length F = 3%nat /\
    (forall x' y' z', [x'; y'; z'] <> s3_ctr e -> me3_pot e [x'; y'; z'] = Ok (U x' y' z')) /\
    is_derive (fun t : R => U t y z) x (- nth 0 F 0) /\ is_derive (fun t : R => U x t z) y (- nth 1 F 0) /\ is_derive (fun t : R => U x y t) z (- nth 2 F 0).
Proof.
  intros Hw Hoff. destruct (wf3_form p e Hw) as [f Ef]. assert (HC : length (s3_ctr e) = 3%nat) by apply Hw. set (c := s3_ctr e) in *.
  assert (Hnz : pn (p3 (vsub [x; y; z] c)) <> 0). { apply p3_sub_nz; [exact HC|reflexivity|]. intros E. apply Hoff. rewrite <- E. split; reflexivity. }
  apply okx3_iff in Hoff; [|exact HC|reflexivity]. unfold okx3 in Hoff.
  exists (fun a b d => - Re (mval3 (Z.of_nat p) f (p3 (vsub [a; b; d] c)))).
  eexists. split; [rewrite Ef; apply me3_force_ok; try assumption; [lia|reflexivity]|]. split; [reflexivity|].
  split; [intros; rewrite Ef; apply me3_pot_ok; [lia|exact HC|reflexivity|apply p3_sub_nz; [exact HC|reflexivity|assumption]]|].
  destruct (dp3_coord c x y z HC) as (A & B & D).
  split; [|split]; cbn [map seq nth]; apply (is_derive_opp (K := R_AbsRing) (V := R_NormedModule));
  [exact (proj1 (mval3_derive _ f _ _ _ A Hnz))|exact (proj1 (mval3_derive _ f _ _ _ B Hnz))|exact (proj1 (mval3_derive _ f _ _ _ D Hnz))].
Qed.
Theorem force3_on_axis p e x : wf3 p e -> length x = 3%nat -> on_axis (s3_ctr e) x -> le3_force e x = NonFinite /\ me3_force e x = NonFinite.
Proof.
  intros Hw Hx Hon. assert (HC : length (s3_ctr e) = 3%nat) by apply Hw.
  assert (N : ~ off_axis (p3 (vsub x (s3_ctr e)))) by (intros O; apply (proj1 (okx3_iff _ _ HC Hx)) in O; contradiction).
  split; [apply le3_force_axis|apply me3_force_axis]; assumption.
Qed.

(** *** Truncation errors *)
Theorem me3_force_error' center p srcs x rad r : length center = 3%nat -> length x = 3%nat -> same_dim 3 srcs ->
  0 <= rad < r -> (forall s, In s srcs -> dist (ps_pos s) center <= rad) -> r <= dist x center -> ~ on_axis center x ->
  exists e F, me3_sources center (Z.of_nat p) srcs = Ok e /\ me3_force e x = Ok F /\ length F = 3%nat /\
    forall k, (k < 3)%nat -> Rabs (nth k F 0 - rsum (fun s => force_on 3 true 0 s x k) srcs) <=
      abs_charge srcs * (INR (p + 2) * (rad / r) ^ (p + 1) / (r - rad) ^ 2).
Proof.
  intros Hc Hx HS Hr Hin Hd Hoff. apply okx3_iff in Hoff; try assumption.
  destruct (me3_force_error p center srcs x rad r Hc Hx HS Hr Hin Hd Hoff) as (e & F & E & V & L & B).
  exists e, F. split; [exact E|]. split; [exact V|]. split; [exact L|]. intros k Hk. rewrite Rmult_comm. replace (p + 1)%nat with (S p) by lia. exact (B k Hk).
Qed.
Theorem le3_force_error' center p srcs x rad r : length center = 3%nat -> length x = 3%nat -> same_dim 3 srcs ->
  0 <= rad < r -> (forall s, In s srcs -> r <= dist (ps_pos s) center) -> dist x center <= rad -> ~ on_axis center x ->
  exists e F, le3_sources center (Z.of_nat p) srcs = Ok e /\ le3_force e x = Ok F /\ length F = 3%nat /\
    forall k, (k < 3)%nat -> Rabs (nth k F 0 - rsum (fun s => force_on 3 true 0 s x k) srcs) <=
      abs_charge srcs * (INR (p + 1) * (rad / r) ^ p / (r - rad) ^ 2).
Proof.
  intros Hc Hx HS Hr Hin Hd Hoff. apply okx3_iff in Hoff; try assumption.
  destruct (le3_force_error p center srcs x rad r Hc Hx HS Hr Hin Hd Hoff) as (e & F & E & V & L & B).
  exists e, F. split; [exact E|]. split; [exact V|]. split; [exact L|]. intros k Hk. rewrite Rmult_comm. exact (B k Hk).
Qed.
Theorem m2l3_force_error' orders tb center c p srcs x r1 r2 D : tables3_after orders = Ok tb -> (1 <= p <= max_order3 orders)%nat ->
  length center = 3%nat -> length c = 3%nat -> length x = 3%nat -> same_dim 3 srcs ->
  0 <= r1 -> 0 <= r2 -> r1 + r2 < D -> D <= dist c center ->
  (forall s, In s srcs -> dist (ps_pos s) c <= r2) -> dist x center <= r1 -> ~ on_axis center x ->
  exists me e F, me3_sources c (Z.of_nat p) srcs = Ok me /\ le3_convert tb center me = Ok e /\ le3_force e x = Ok F /\ length F = 3%nat /\
    forall k, (k < 3)%nat -> Rabs (nth k F 0 - rsum (fun s => force_on 3 true 0 s x k) srcs) <=
    abs_charge srcs * ((INR (p + 2) * (r2 / (D - r1)) ^ (p + 1) + INR (p + 1) * (r1 / (D - r2)) ^ p) / (D - r1 - r2) ^ 2).
Proof.
  intros H Hp Hc Hc1 Hx HS H1 H2 HD HD' Hin Hd Hoff. apply okx3_iff in Hoff; try assumption. assert (Htb := tables3_for orders tb p H Hp).
  destruct (m2l3_force_error p tb center c srcs r1 r2 D Htb Hc Hc1 HS H1 H2 HD Hin HD') as (e & E & B).
  destruct (B x Hx Hd Hoff) as (F & V & L & Bv). exists (s3_of (Z.of_nat p) c (me_coef c srcs)), e, F.
  split; [apply me3_sources_ok; try assumption; lia|]. split; [exact E|]. split; [exact V|]. split; [exact L|].
  intros k Hk. specialize (Bv k Hk). unfold gtrunc3_two in Bv. replace (S p) with (p + 1)%nat in Bv by lia. rewrite Rmult_comm. exact Bv.
Qed.

(** *** Hypotheses on the input alone *)
Theorem fmm3_force_usable orders tb0 cap eps srcs p : tables3_after orders = Ok tb0 -> same_dim 3 srcs -> straddles 3 srcs ->
  (forall x, count_occ list_R_eq_dec (map (@ps_pos R) srcs) x <= cap)%nat ->
  order_of eps srcs = Ok p -> eps < abs_charge srcs -> (p <= 42)%nat ->
  exists fuel t o c l, root_box 3 (map (@ps_pos R) srcs) = Some (c, l) /\ (forall s, In s srcs -> in_box 3 c l (ps_pos s)) /\
  build_adaptive 3 (@ps_pos R) cap fuel srcs = Ok t /\
  (forall r, adaptive_fmm3 cap fuel eps srcs tb0 r <-> r = Ok o) /\
  forall grav smooth x, length x = 3%nat -> 0 <= smooth -> (forall n, In n (heap t) -> ~ on_axis (an_center n) x) ->
   exists v, force3_at grav smooth srcs o x = Ok (map v (seq 0 3)) /\
     (in_box 3 c l x -> exists near far, Permutation (near ++ far) (filter (not_at x) srcs) /\
       (forall s, In s far -> apart 3 (ps_pos s) x (l / 2 ^ at_height t)) /\
       forall k, (k < 3)%nat ->
       Rabs (v k - (rsum (fun s => force_on 3 grav smooth s x k) near + rsum (fun s => force_on 3 grav 0 s x k) far)) <=
         (if (length srcs <=? cap)%nat then 0 else bound3f p (l / 2 ^ at_height t) * abs_charge srcs)) /\
     (~ in_box 3 c l x -> map v (seq 0 3) = direct_force 3 grav smooth srcs x).
Proof.
  intros Htb Hdim Hst Hcnt Hord HA Hp42. assert (Hp := order_pos _ _ _ Hord HA).
  assert (HN : srcs <> []). { intros ->. destruct (Hst 0%nat ltac:(lia)) as [(s & [] & _) _]. }
  destruct (proj2 (adaptive_builds 3 (@ps_pos R) cap srcs ltac:(lia) HN Hdim Hst) Hcnt) as (fuel & t & HB).
  destruct (adaptive_inv 3 (@ps_pos R) cap fuel srcs t ltac:(lia) Hdim HB) as (c & l & h & HR & _).
  assert (Hbox := root_box_contains 3 (@ps_pos R) srcs c l ltac:(lia) Hdim HR Hst).
  destruct (fmm3_force orders tb0 cap fuel eps srcs p t c l Htb Hdim Hord (conj Hp Hp42) HB HR Hbox) as (o & U & _ & _ & V).
  exists fuel, t, o, c, l. split; [exact HR|]. split; [exact Hbox|]. split; [exact HB|]. split; [exact U|].
  intros grav smooth x Hx Hs Hoff. apply (V grav smooth x Hx Hs). intros L n HL [->|[Hn _]]; [|apply Hoff; exact Hn].
  destruct (containing_leaf_correct 3 (@ps_pos R) cap fuel srcs t ltac:(lia) Hdim HB) as (c' & l' & HR' & HC). rewrite HR in HR'. injection HR' as <- <-.
  destruct (HC x) as [HC1 HC2]. destruct (in_box_dec 3 ltac:(lia) c l x) as [I|I].
  - destruct (HC1 I) as (n & E & Hn & _). rewrite HL in E. injection E as <-. apply Hoff. apply in_or_app. right. exact Hn.
  - rewrite (HC2 I) in HL. discriminate.
Qed.
Theorem bal3_force_usable orders tb0 cap eps srcs p : tables3_after orders = Ok tb0 -> same_dim 3 srcs -> spread 3 (@ps_pos R) srcs ->
  (1 <= cap)%nat -> (cap < length srcs * 2 ^ 3)%nat -> (Z.of_nat (length srcs) <= Z.of_nat cap * 2 ^ 30)%Z ->
  order_of eps srcs = Ok p -> eps < abs_charge srcs -> (p <= 42)%nat ->
  exists h o c l, bal_height 3 (length srcs) cap = Ok h /\ root_box 3 (map (@ps_pos R) srcs) = Some (c, l) /\ 0 < l /\ (forall s, In s srcs -> in_half_open 3 c l (ps_pos s)) /\
  (forall r, balanced_fmm3 cap eps srcs tb0 r <-> r = Ok o) /\
  forall grav smooth x, length x = 3%nat -> in_half_open 3 c l x -> 0 <= smooth ->
  exists L, bal_containing_leaf 3 (b_tree (b3_fmm o)) x = Ok L /\ in_half_open 3 (an_center L) (an_len L) x /\
  (~ on_axis (an_center L) x -> exists v, bal_force3_at grav smooth o x = Ok (map v (seq 0 3)) /\
     exists near far, Permutation (near ++ far) (filter (not_at x) srcs) /\
       (forall s, In s far -> apart 3 (ps_pos s) x (l / 2 ^ h)) /\
       forall k, (k < 3)%nat ->
       Rabs (v k - (rsum (fun s => force_on 3 grav smooth s x k) near + rsum (fun s => force_on 3 grav 0 s x k) far)) <=
         (if (h =? 0)%nat then 0 else bound3f p (l / 2 ^ h) * abs_charge srcs)) /\
  (on_axis (an_center L) x -> bal_force3_at grav smooth o x = NonFinite).
Proof.
  intros Htb Hdim Hst Hc1 Hc2 Hc3 Hord HA Hp42. assert (Hp := order_pos _ _ _ Hord HA).
  destruct (spread_inside 3 (@ps_pos R) srcs ltac:(lia) Hdim Hst) as (c & l & HR & Hc & Hl & Hin).
  destruct (height_exists3 _ _ Hc1 Hc2 Hc3) as (h & Hh). assert (H10 := height_bounded3 _ _ _ Hh Hc3).
  destruct (bal3_force orders tb0 cap eps srcs p h c l Htb Hdim Hord (conj Hp Hp42) Hh H10 HR Hl Hin) as (o & U & _ & _ & V).
  exists h, o, c, l. split; [exact Hh|]. split; [exact HR|]. split; [exact Hl|]. split; [exact Hin|]. split; [exact U|]. exact V.
Qed.

(** *** Where the evaluation fails *)
Theorem fmm3_force_undefined orders tb0 cap fuel eps srcs p t c l : tables3_after orders = Ok tb0 -> same_dim 3 srcs ->
  order_of eps srcs = Ok p -> (1 <= p <= 42)%nat -> build_adaptive 3 (@ps_pos R) cap fuel srcs = Ok t ->
  root_box 3 (map (@ps_pos R) srcs) = Some (c, l) -> (forall s, In s srcs -> in_box 3 c l (ps_pos s)) -> 0 < l ->
  exists o, (forall r, adaptive_fmm3 cap fuel eps srcs tb0 r <-> r = Ok o) /\
  forall n, In n (leaf_nodes t) -> exists x, length x = 3%nat /\ in_box 3 c l x /\ ~ In x (map (@ps_pos R) srcs) /\ on_axis (an_center n) x /\
  containing_leaf 3 t x = Ok (Some n) /\ forall grav smooth, 0 <= smooth -> force3_at grav smooth srcs o x = NonFinite.
Proof.
  intros Htb Hdim Hord Hp HB HR Hbox Hl.
  destruct (fmm3_force orders tb0 cap fuel eps srcs p t c l Htb Hdim Hord Hp HB HR Hbox) as (o & U & _ & _ & V).
  exists o. split; [exact U|]. intros n Hn. destruct (leaf_axis_point cap fuel srcs t c l Hdim HB HR n Hl Hn) as (x & Hx & HI & HO & HN & HC).
  exists x. split; [exact Hx|]. split; [exact HI|]. split; [exact HN|]. split; [exact HO|]. split; [exact HC|]. intros grav smooth Hs.
  apply (proj2 (V grav smooth x Hx Hs) n n HC); [left; reflexivity|exact HO].
Qed.
Theorem five3_force_undefined : exists fuel t o c l x, root_box 3 (map (@ps_pos R) five3_unit) = Some (c, l) /\
  build_adaptive 3 (@ps_pos R) 1 fuel five3_unit = Ok t /\ (forall r, adaptive_fmm3 1 fuel 1 five3_unit tb3_init r <-> r = Ok o) /\
  length x = 3%nat /\ in_box 3 c l x /\ ~ In x (map (@ps_pos R) five3_unit) /\ force3_at true 0 five3_unit o x = NonFinite.
Proof.
  destruct five3_case as (Hdim & Hst & Hsp & Hcnt & Hord & HA).
  assert (HN : five3_unit <> []) by discriminate.
  destruct (proj2 (adaptive_builds 3 (@ps_pos R) 1 five3_unit ltac:(lia) HN Hdim Hst) Hcnt) as (fuel & t & HB).
  destruct (adaptive_inv 3 (@ps_pos R) 1 fuel five3_unit t ltac:(lia) Hdim HB) as (c & l & h & HR & _).
  assert (Hbox := root_box_contains 3 (@ps_pos R) five3_unit c l ltac:(lia) Hdim HR Hst).
  destruct (spread_inside 3 (@ps_pos R) five3_unit ltac:(lia) Hdim Hsp) as (c' & l' & HR' & _ & Hl & _). rewrite HR in HR'. injection HR' as <- <-.
  destruct (fmm3_force_undefined [] tb3_init 1 fuel 1 five3_unit 3 t c l eq_refl Hdim Hord ltac:(lia) HB HR Hbox Hl) as (o & U & V).
  destruct (containing_leaf_correct 3 (@ps_pos R) 1 fuel five3_unit t ltac:(lia) Hdim HB) as (c' & l' & HR' & HC). rewrite HR in HR'. injection HR' as <- <-.
  destruct (proj1 (HC [-1; -1; -1])) as (n & _ & Hn & _); [apply (Hbox (PSrc [-1; -1; -1] 1)); left; reflexivity|].
  destruct (V n Hn) as (x & Hx & HI & Nx & _ & _ & F).
  exists fuel, t, o, c, l, x. split; [exact HR|]. split; [exact HB|]. split; [exact U|]. split; [exact Hx|]. split; [exact HI|]. split; [exact Nx|]. apply F. lra.
Qed.
Theorem off_axes_point' cap fuel srcs t c l : same_dim 3 srcs -> build_adaptive 3 (@ps_pos R) cap fuel srcs = Ok t ->
  root_box 3 (map (@ps_pos R) srcs) = Some (c, l) -> 0 < l ->
  exists x, length x = 3%nat /\ in_box 3 c l x /\ forall n, In n (heap t) -> ~ on_axis (an_center n) x.
Proof. intros Hdim HB HR Hl. apply (off_axes_point srcs t c l); assumption. Qed.

(** *** Concrete cases *)
Lemma gradient_case : exists e, me3_sources [0; 0; 0] 8 [PSrc [1; 0; 0] 1; PSrc [0; 1; 1] (-2)] = Ok e /\ wf3 8 e /\ ~ on_axis (s3_ctr e) [1; 2; 3].
Proof.
  eexists. split; [apply me3_sources_ok; [lia|reflexivity|]|].
  - intros s H. repeat destruct H as [<-|H]; try reflexivity. destruct H.
  - split; [apply (s3_of_wf 8%nat); reflexivity|]. intros [A _]. cbn in A. lra.
Qed.
Lemma off_axis_cases : ~ on_axis [0; 0; 0] [4; 0; 0] /\ ~ on_axis [0; 0; 0] [0; 1; 0].
Proof. split; intros [A B]; cbn in *; lra. Qed.
