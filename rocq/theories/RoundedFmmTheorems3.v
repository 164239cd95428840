(** Construction and evaluation of the three-dimensional adaptive tree in rounded arithmetic. *)
From Coq Require Import List Bool ZArith Arith Lia Lra Reals Permutation.
From Coquelicot Require Import Coquelicot.
From Verif Require Import Num Outcome Vec VecProofs Tables Tables3D Orthtree AdaptiveTree TreeSpec GeometryProofs TreeGeometry AdaptiveProofs BfsProofs ListProofs ListContents
  BuildProofs Schedule CAux TableProofs Expansion3D Exp3Loops Exp3Proofs Exp3Errors Exp3Theorems Fields FieldSpec FieldProofs FmmPasses PassProofs PassSteps PassTree AnyTree AnyLists AnyTheorems AnyPasses
  FmmTree3D FmmTree3DProofs RoundedFields RoundedSpec RoundedProofs RoundedTree RoundedTreeSpec RoundedTreeProofs RoundedAdaptive RoundedExpansion2D RoundedExpansion3D RoundedComplexSpec RoundedHarmonicSpec
  RoundedLoops3 RoundedErrors3 RoundedGood3 RoundedFmmSpec RoundedFmmSpec3 RoundedFmmTheorems RoundedApi RoundedApi3 RoundedApiProofs RoundedPasses3 RoundedFmmEval3 RoundedGeometry3.
Import ListNotations.
Local Open Scope R_scope.

Section Main.
Variable rnd : R -> R.
Variable hyp : list R -> R.
Hypothesis HD : double_like rnd hyp.
Notation NN := (NumRnd rnd).
Notation pos := (@ps_pos R).
Variable w : R.
Hypothesis Hw : 0 <= w <= 1 / 2.
Variable A : harith.
Variable ky : nat.
Hypothesis HA : accurate_harmonics w ky A.
Variables mforce lforce : se3 -> list R -> outcome (list R).
Variable p : nat.
Hypothesis Hp1 : (1 <= p)%nat.
Variable tb : tb3.
Hypothesis Htb : tb3_for tb (Z.of_nat p).
Variables h cap fuel : nat.
Variable srcs : list (psrc R).
Hypothesis Hh32 : (h < 32)%nat.
Hypothesis Hdim : same_dim 3 srcs.
Variables m M : R.
Hypothesis Hsur : surround 3 pos srcs m M.
Hypothesis Hmod : moderate h m M.
Variable t : @atree R (psrc R).
Hypothesis Hbuild : build_adaptive (N := NN) 3 pos cap fuel srcs = Ok t.
Hypothesis Ht : (at_height t <= h)%nat.
Notation rc := (ByCount (rr cap srcs)).
Notation o := (ops3_r A mforce lforce p).
Notation mkf := (make_fmm_r rnd hyp o 3 cap fuel srcs tb).

Lemma HR : in_adaptive_range 3 h pos srcs.
Proof. split; [exact (le_S 1 2 (le_S 1 1 (le_n 1)))|]. split; [exact Hh32|]. split; [exact Hdim|]. exists m, M. split; assumption. Qed.
Lemma m_le_M : 0 < m <= M.
Proof. destruct Hmod as (P & _). split; [exact P|]. destruct (Hsur 0%nat (Nat.lt_0_succ 2)) as (_ & (s & Hs & G) & D). specialize (D s Hs). apply abs2 in D. lra. Qed.

(** Everything known of the root box [c], [l] and the height [k]. *)
Record tfacts (c : list R) (l : R) (k : nat) : Prop := {
  f_a : afacts rnd hyp 3 h pos srcs cap t c l k;
  f_c : length c = 3%nat;
  f_l : 2 * m <= l <= 3 * M;
  f_ctr : forall b, (length b <= h)%nat -> length (@AnyTree.ctr R NN 3 c l b) = 3%nat /\ forall j, (j < 3)%nat ->
    Rabs (nth j (@AnyTree.ctr R NN 3 c l b) 0 - nth j (box_ctr 3 c l b) 0) <= l / 2 ^ h / 5000;
  f_pt : forall x k j, among 3 pos srcs x -> (k <= h)%nat -> (j < 3)%nat ->
    Rabs (nth j x 0 - nth j (box_ctr 3 c l (@AnyTree.path R NN 3 c l x k)) 0) <= l / 2 ^ k / 2 + l / 2 ^ h / 100;
  f_in : forall x b j, (length b <= h)%nat -> (j < 3)%nat -> @contains R NN 3 (@AnyTree.ctr R NN 3 c l b) (@AnyTree.blen R NN l b) x = true ->
    Rabs (nth j x 0 - nth j (box_ctr 3 c l b) 0) <= l / 2 ^ length b / 2 + l / 2 ^ h / 100 }.
Lemma tfacts_of : exists c l k, tfacts c l k.
Proof.
  destruct (afacts_of rnd hyp HD 3 h pos srcs HR cap fuel t Hbuild Ht) as (c & l & k & F).
  destruct HD as ((u & Hu & Hacc) & Hint & Hhyp). destruct Hmod as (P1 & P2 & P3).
  destruct (fine_facts rnd u Hu Hacc Hint 3 m M h (le_S 1 2 (le_S 1 1 (le_n 1))) Hh32 m_le_M P2 P3 pos srcs Hdim Hsur) as (c' & l' & R0 & Hc & Hl & F1 & F2 & F3).
  rewrite (a_root _ _ _ _ _ _ _ _ _ _ _ F) in R0. injection R0 as <- <-. exists c, l, k. split; assumption.
Qed.

Section Tree.
Variable c : list R.
Variable l : R.
Variable k : nat.
Hypothesis F : tfacts c l k.
Notation present := (@AnyTree.present R (psrc R) NN 3 pos c l cap srcs rc).
Notation refined := (@AnyTree.refined R (psrc R) NN 3 pos c l cap srcs rc).
Notation mk := (@AnyTree.mk R (psrc R) NN 3 pos c l cap srcs rc).
Notation ls := (@AnyLists.final R (psrc R) NN 3 pos c l cap srcs rc k).
Notation rd := (rad l).
Notation tu := (tau h m p).
Let FA := f_a c l k F.
Let Hk := a_ok _ _ _ _ _ _ _ _ _ _ _ FA.

Lemma leaf_cap b : present b -> refined b = false -> (length (@AnyTree.sub R (psrc R) NN 3 pos c l srcs b) <= cap)%nat.
Proof.
  intros P N. destruct (adaptive_sources rnd hyp HD 3 h pos srcs HR cap fuel t Hbuild Ht) as (_ & S). destruct (S (mk b)) as (C & _).
  - apply (leaf_is rnd hyp 3 h pos srcs cap t c l k FA). exists b. auto.
  - unfold AnyTree.mk in C. rewrite N in C. exact C.
Qed.
Lemma tree_is : t = @AnyTree.spec_tree R (psrc R) NN 3 pos c l cap srcs rc k.
Proof. exact (a_t _ _ _ _ _ _ _ _ _ _ _ FA). Qed.
Lemma lists_is : all_lists (N := NN) (D := DistRnd hyp) 3 t = Ok ls.
Proof. exact (lists_final rnd hyp 3 h pos srcs cap t Ht c l k FA). Qed.

Variable K : nat.
Hypothesis HK : forall n, In n (heap t) -> (length (nl_inter ls (an_addr n)) <= K)%nat /\ (length (nl_X ls (an_addr n)) <= K)%nat /\
  (length (nl_W ls (an_addr n)) <= K)%nat /\ (length (nl_near ls (an_addr n)) <= K)%nat.
Lemma HKp b : present b -> (length (nl_inter ls b) <= K)%nat /\ (length (nl_X ls b) <= K)%nat /\ (length (nl_W ls b) <= K)%nat /\ (length (nl_near ls b) <= K)%nat.
Proof. intros P. apply (HK (mk b)). apply (heap_is rnd hyp 3 h pos srcs cap t c l k FA). exists b. auto. Qed.
Notation MEk := (@MEok w ky p NN c l cap srcs k pos rd).
Notation LEk := (@LEok w ky p tu NN c l cap srcs k pos ls K rd).
Definition good (mm : @mem se3 se3 tb3) : Prop :=
  (forall b, present b -> refined b = false -> exists e, m_le mm b = Some e /\ LEk b e) /\
  (forall q, present q -> (2 <= length q)%nat -> exists e, m_me mm q = Some e /\ MEk q e).

Let Hm0 : 0 < m. Proof. apply m_le_M. Qed.
Let g0 := geo0 rnd hyp h cap srcs t Ht c l k FA m M Hm0 (f_l _ _ _ F) (f_ctr _ _ _ F).
Let g1 := geo1 rnd hyp h cap srcs HR t Ht c l k FA m M Hm0 (f_l _ _ _ F) (f_ctr _ _ _ F) (f_pt _ _ _ F).
Let g2 := geo2 rnd hyp h cap srcs t Ht c l k FA m M Hm0 (f_c _ _ _ F) (f_l _ _ _ F) (f_ctr _ _ _ F).
Let g3 := geo3 rnd hyp h cap srcs t Ht c l k FA m M Hm0 (f_c _ _ _ F) (f_l _ _ _ F) (f_ctr _ _ _ F) p.
Let g4 := geo4 rnd hyp h cap srcs HR t Ht c l k FA m M Hm0 (f_c _ _ _ F) (f_l _ _ _ F) (f_ctr _ _ _ F) (f_pt _ _ _ F) p.
Let g5 := geo5 rnd hyp h cap srcs t Ht c l k FA (f_c _ _ _ F).
Let gL := geoL rnd hyp h cap srcs t Ht c l k FA m M Hm0 (f_l _ _ _ F) (f_ctr _ _ _ F) (f_in _ _ _ F).
Let gW := geoW rnd hyp h cap srcs t Ht c l k FA m M Hm0 (f_c _ _ _ F) (f_l _ _ _ F) (f_ctr _ _ _ F) (f_in _ _ _ F) p.
Let tau0 : 0 <= tu. Proof. left. apply tau_pos. exact Hm0. Qed.

Lemma constructed : exists mm, good mm /\ forall r, mkf r <-> r = Ok (Fmm t ls mm).
Proof.
  assert (LS := lists_is). assert (TR := tree_is).
  destruct (le_lt_dec (length srcs) cap) as [Small|Big].
  - assert (K0 : k = 0%nat).
    { destruct Hk as (_ & X). destruct k as [|k']; [reflexivity|exfalso]. apply (X 0%nat); [lia|]. cbn [AnyTree.level filter]. unfold AnyTree.refined, rr.
      apply Nat.leb_le in Small. rewrite Small. reflexivity. }
    exists (mem0 o t tb). split; [split|].
    + intros b P N. assert (D := @AnyTree.present_depth R (psrc R) NN 3 pos c l cap srcs rc k Hk b P). exists (fst (o_zero o tb (@AnyTree.ctr R NN 3 c l b))). split.
      * cbn [mem0 m_le]. rewrite TR. rewrite (@AnyTree.lookup_mk R (psrc R) NN 3 pos c l cap srcs rc k Hk b P). reflexivity.
      * apply (@hzero w ky A mforce lforce p Hp1 tu NN tb c l cap srcs rc k pos ls K rd g0 g5); [exact P|lia].
    + intros q P L2. assert (D := @AnyTree.present_depth R (psrc R) NN 3 pos c l cap srcs rc k Hk q P). lia.
    + intros r. split.
      * intros X. destruct X as [r E N|t' r E1 E2 N|t' ls' E1 E2 E3|t' ls' E1 E2 E3 E4|t' ls' r E1 E2 E3 E4 E5 E6]; try (exfalso; lia).
        -- exfalso. apply (N t). congruence.
        -- rewrite Hbuild in E1. injection E1 as <-. exfalso. apply (N ls). congruence.
        -- rewrite Hbuild in E1. injection E1 as <-. rewrite LS in E2. injection E2 as <-. reflexivity.
      * intros ->. apply mr_leaf; assumption.
  - assert (K1 : (1 <= k)%nat).
    { assert (RT : refined [] = true). { unfold AnyTree.refined, rr. apply negb_true_iff, Nat.leb_gt. exact Big. }
      assert (D := @AnyTree.refined_depth R (psrc R) NN 3 pos c l cap srcs rc k Hk [] I RT). cbn [length] in D. lia. }
    destruct (@passes_fine3 w Hw ky A HA mforce lforce p Hp1 tu NN tb Htb c l cap srcs rc k pos ls Hk Hdim leaf_cap K) with (rad := rd) as (mm & G & U); try assumption.
    + intros b P. split; apply (HKp b P).
    + exists mm. split; [split|].
      * intros b P N. apply G; auto.
      * intros q P L2. apply G; auto.
      * rewrite <- TR in U. intros r. split.
        -- intros X. destruct X as [r E N|t' r E1 E2 N|t' ls' E1 E2 E3|t' ls' E1 E2 E3 E4|t' ls' r E1 E2 E3 E4 E5 E6]; try (exfalso; lia).
           ++ exfalso. apply (N t). congruence.
           ++ rewrite Hbuild in E1. injection E1 as <-. exfalso. apply (N ls). congruence.
           ++ rewrite Hbuild in E1. injection E1 as <-. exfalso. rewrite TR in E4. cbn [spec_tree at_height at_nodes at_leaves] in E4. rewrite !map_length, !seq_length in E4. lia.
           ++ rewrite Hbuild in E1. injection E1 as <-. rewrite LS in E2. injection E2 as <-. apply U in E6. subst r. reflexivity.
        -- intros ->. change (Ok (Fmm t ls mm)) with (omap (fun m => Fmm t ls m) (Ok mm)). apply mr_passes; try assumption.
           ++ rewrite TR. cbn [spec_tree at_height at_nodes]. rewrite map_length, seq_length. reflexivity.
           ++ rewrite TR. cbn [spec_tree at_height at_leaves]. rewrite map_length, seq_length. lia.
           ++ apply U. reflexivity.
Qed.

Variable lg : R -> R.
Variables u e : R.
Hypothesis Hu : 0 <= u <= w.
Hypothesis He : 0 <= e <= w.
Hypothesis Hrnd : accurate_rounding u rnd.
Hypothesis Hhyp : accurate_norm e hyp.
Variable mm : @mem se3 se3 tb3.
Hypothesis HG : good mm.
Variable x : list R.
Hypothesis Hx : length x = 3%nat.
Hypothesis Hrep : representable rnd x.

Let Sy := adjb_comm rnd 3 pos srcs cap c l.
Let g3' b q (P : present b) (Hq : In q (nl_inter ls b)) : present q := proj1 (g3 b q P Hq).
Lemma eval_pot_leaf field L : containing_leaf (N := NN) 3 t x = Ok (Some (mk L)) ->
  eval_pot_r rnd hyp lg o 3 field srcs (Fmm t ls mm) x = leaf_pot rnd hyp lg A mforce lforce p ls L x mm (lookup t) field.
Proof. intros CL. unfold eval_pot_r. cbn [f_tree f_lists f_mem]. rewrite CL. reflexivity. Qed.
Lemma near_lookup L q : present L -> refined L = false -> In q (nl_near ls L) -> lookup t q = Some (mk q).
Proof.
  intros P N Hq. rewrite tree_is. apply (@AnyTree.lookup_mk R (psrc R) NN 3 pos c l cap srcs rc k Hk). apply (near_pres rnd c l cap srcs rc k Sy Hk L P N q Hq).
Qed.
Lemma ge_growth n : ge w p n = growth3 w p n.
Proof. unfold ge, growth3, gam, k1. rewrite plus_IZR, <- INR_IZR_INZ. reflexivity. Qed.
Lemma k1_INR : k1 p = INR p + 1.
Proof. unfold k1. rewrite plus_IZR, <- INR_IZR_INZ. reflexivity. Qed.
Lemma evaluated_in field n : containing_leaf (N := NN) 3 t x = Ok (Some n) -> exists v, eval_pot_r rnd hyp lg o 3 field srcs (Fmm t ls mm) x = Ok v /\
  Rabs (v - direct_potential 3 field (others x srcs) x) <= bound3 w p h (roundings3 ky p cap K k) m (others x srcs) x.
Proof.
  intros CL. assert (TR := tree_is). assert (CL' := CL). unfold containing_leaf in CL'. rewrite TR in CL'.
  destruct (@AnyTree.descend_root R (psrc R) NN 3 pos c l cap srcs rc k Hk x) as (L & D & N & P & E). rewrite D in CL'. unfold omap in CL'; cbn [bind] in CL'.
  destruct (contains 3 (an_center (mk L)) (an_len (mk L)) x) eqn:C; [|discriminate]. injection CL' as <-. cbn [AnyTree.mk an_center an_len] in C.
  rewrite (eval_pot_leaf field L CL).
  destruct (eval_fine w Hw rnd hyp u e Hu He Hrnd Hhyp lg ky A HA mforce lforce p Hp1 tu tau0 c l cap srcs rc k pos ls Hk Hdim leaf_cap K rd g0 g1 g2 g3 g4
    L x P Hx Hrep (gL L x Hx P C) (fun q => gW L x q Hx P C)) with (m := mm) (field := field) (lk := lookup t) as (v & V1 & V2).
  - destruct (HKp L P) as (_ & _ & X). exact X.
  - exact (W_pres rnd c l cap srcs rc k Hk L P).
  - exact (near_pres rnd c l cap srcs rc k Sy Hk L P N).
  - exact (cover rnd c l cap srcs rc k Sy Hk g3' L P N).
  - exact (near_other rnd c l cap srcs rc L x P N E).
  - apply HG; assumption.
  - intros q. apply HG.
  - intros q. apply near_lookup; assumption.
  - exists v. split; [exact V1|]. eapply Rle_trans; [exact V2|]. apply Req_le. unfold bound3.
    replace (cN ky p cap k K) with (roundings3 ky p cap K k). 2:{ unfold roundings3, cN, cL, cB, cM, Nop. rewrite Nat2Z.id, Nat.sub_0_r. ring. }
    rewrite ge_growth, k1_INR. reflexivity.
Qed.
End Tree.
End Main.

Theorem rounded_constructs3 rnd hyp w ky A mforce lforce p tb h cap fuel srcs : double_like rnd hyp -> 0 <= w <= 1 / 2 -> accurate_harmonics w ky A -> (1 <= p)%nat -> tb3_for tb (Z.of_nat p) ->
  in_refinable_range 3 h (@ps_pos R) srcs -> (1 <= cap)%nat -> (h <= fuel)%nat ->
  exists f, (at_height (f_tree f) <= h)%nat /\ forall r, make_fmm_r rnd hyp (ops3_r A mforce lforce p) 3 cap fuel srcs tb r <-> r = Ok f.
Proof.
  intros HD Hw HA Hp Htb RG Hc Hf. destruct (adaptive_ends rnd hyp 3 h (@ps_pos R) srcs cap fuel HD RG Hc Hf) as (t & HB & Ht).
  destruct RG as (_ & H32 & Hdim & m & M & Hsur & Hmod & _).
  destruct (tfacts_of rnd hyp HD h cap fuel srcs (proj2 H32) Hdim m M Hsur Hmod t HB Ht) as (c & l & k & F).
  set (ls := @AnyLists.final R (psrc R) (NumRnd rnd) 3 (@ps_pos R) c l cap srcs (ByCount (rr cap srcs)) k).
  destruct (lists_within_ex (Fmm t ls (mem0 (ops3_r A mforce lforce p) t tb))) as (K & HK). unfold lists_within in HK. cbn [f_tree f_lists] in HK.
  destruct (constructed rnd hyp HD w Hw A ky HA mforce lforce p Hp tb Htb h cap fuel srcs (proj2 H32) Hdim m M Hsur Hmod t HB Ht c l k F K HK) as (mm & _ & U).
  exists (Fmm t ls mm). split; [exact Ht|exact U].
Qed.

Section Eval.
Variable rnd : R -> R.
Variable hyp : list R -> R.
Variable lg : R -> R.
Variables w u e : R.
Hypothesis HD : double_like rnd hyp.
Hypothesis HE : accurate_space w u e rnd hyp.
Variable ky : nat.
Variable A : harith.
Hypothesis HA : accurate_harmonics w ky A.
Variables mforce lforce : se3 -> list R -> outcome (list R).
Variable p : nat.
Hypothesis Hp : (1 <= p)%nat.
Variables h cap fuel K : nat.
Variables m M : R.
Variable srcs : list (psrc R).
Hypothesis HR : space_range h m M srcs.
Variable tb : tb3.
Hypothesis Htb : tb3_for tb (Z.of_nat p).
Variable f : @fmm se3 se3 tb3.
Hypothesis Hf : make_fmm_r rnd hyp (ops3_r A mforce lforce p) 3 cap fuel srcs tb (Ok f).
Hypothesis Ht : (at_height (f_tree f) <= h)%nat.
Hypothesis HK : lists_within K f.
Variable x : list R.
Hypothesis Hx : length x = 3%nat.
Hypothesis Hrep : representable rnd x.

Lemma eval_setup : exists c l k mm, tfacts rnd hyp h cap srcs m M (f_tree f) c l k /\ k = at_height (f_tree f) /\
  f = Fmm (f_tree f) (@AnyLists.final R (psrc R) (NumRnd rnd) 3 (@ps_pos R) c l cap srcs (ByCount (rr cap srcs)) k) mm /\
  good rnd w ky p h cap srcs m c l k K mm /\
  forall n, In n (heap (f_tree f)) -> let ls := @AnyLists.final R (psrc R) (NumRnd rnd) 3 (@ps_pos R) c l cap srcs (ByCount (rr cap srcs)) k in
  (length (nl_inter ls (an_addr n)) <= K)%nat /\ (length (nl_X ls (an_addr n)) <= K)%nat /\ (length (nl_W ls (an_addr n)) <= K)%nat /\ (length (nl_near ls (an_addr n)) <= K)%nat.
Proof.
  destruct HE as (E1 & E2 & E3 & _). destruct HR as (H32 & Hdim & Hsur & Hmod). destruct (tree_built _ _ _ _ _ _ _ _ _ Hf) as (HB & HLS).
  destruct (tfacts_of rnd hyp HD h cap fuel srcs H32 Hdim m M Hsur Hmod (f_tree f) HB Ht) as (c & l & k & F). exists c, l, k.
  assert (LS := lists_is rnd hyp h cap srcs m M (f_tree f) Ht c l k F). assert (TR := tree_is rnd hyp h cap srcs m M (f_tree f) c l k F).
  rewrite LS in HLS. injection HLS as EL. assert (HK' := HK). unfold lists_within in HK'. rewrite <- EL in HK'.
  destruct (constructed rnd hyp HD w ltac:(lra) A ky HA mforce lforce p Hp tb Htb h cap fuel srcs H32 Hdim m M Hsur Hmod (f_tree f) HB Ht c l k F K HK') as (mm & G & U).
  exists mm. split; [exact F|]. split; [rewrite TR; reflexivity|]. split; [apply U in Hf; injection Hf as Hf'; exact Hf'|]. split; [exact G|exact HK'].
Qed.
Theorem rounded_potential_found3 field n : containing_leaf (N := NumRnd rnd) 3 (f_tree f) x = Ok (Some n) ->
  exists v, eval_pot_r rnd hyp lg (ops3_r A mforce lforce p) 3 field srcs f x = Ok v /\
  Rabs (v - direct_potential 3 field (others x srcs) x) <= bound3 w p h (roundings3 ky p cap K (at_height (f_tree f))) m (others x srcs) x.
Proof.
  intros CL. destruct eval_setup as (c & l & k & mm & F & Ek & Ef & G & HK'). destruct HE as (E1 & E2 & E3 & E4 & E5). destruct HR as (H32 & Hdim & Hsur & Hmod).
  destruct (tree_built _ _ _ _ _ _ _ _ _ Hf) as (HB & HLS). rewrite <- Ek.
  destruct (evaluated_in rnd hyp HD w ltac:(lra) A ky HA mforce lforce p Hp h cap fuel srcs H32 Hdim m M Hsur Hmod (f_tree f) HB Ht c l k F K HK' lg u e ltac:(lra) ltac:(lra) E4 E5 mm G x Hx Hrep field n CL) as (v & V1 & V2).
  exists v. split; [rewrite Ef; exact V1|exact V2].
Qed.
Theorem rounded_potential_outside3 field : accurate_log e lg -> containing_leaf (N := NumRnd rnd) 3 (f_tree f) x = Ok None -> (forall s, In s srcs -> ps_pos s <> x) ->
  exists v, eval_pot_r rnd hyp lg (ops3_r A mforce lforce p) 3 field srcs f x = Ok v /\
  Rabs (v - direct_potential 3 field srcs x) <= ((1 + u) ^ (length srcs + 1) / ((1 - e) * (1 - u)) - 1) * magnitude3 srcs x.
Proof.
  intros HL CL NS. destruct HE as (E1 & E2 & E3 & E4 & E5). destruct HR as (H32 & Hdim & Hsur & Hmod).
  destruct (space_potential_error rnd hyp lg u e field false srcs x ltac:(lra) ltac:(lra) E4 E5 HL Hx Hdim Hrep (or_intror NS)) as (v & V1 & V2).
  exists v. unfold eval_pot_r. rewrite CL. cbn [bind]. split; [exact V1|]. rewrite (others_none x srcs NS) in V2. exact V2.
Qed.
Theorem rounded_lookup_ends3 : exists ol, containing_leaf (N := NumRnd rnd) 3 (f_tree f) x = Ok ol.
Proof.
  destruct eval_setup as (c & l & k & mm & F & _). assert (TR := tree_is rnd hyp h cap srcs m M (f_tree f) c l k F).
  assert (Hk := a_ok _ _ _ _ _ _ _ _ _ _ _ (f_a _ _ _ _ _ _ _ _ _ _ _ F)).
  destruct (@AnyTree.descend_root R (psrc R) (NumRnd rnd) 3 (@ps_pos R) c l cap srcs (ByCount (rr cap srcs)) k Hk x) as (L & D & _). rewrite <- TR in D.
  unfold containing_leaf. rewrite D. unfold omap; cbn [bind]. eexists. reflexivity.
Qed.
End Eval.

(** The whole constructor. *)
Section Constructor.
Variable rnd : R -> R.
Variable hyp : list R -> R.
Variable lg : R -> R.
Variables w u e : R.
Hypothesis HD : double_like rnd hyp.
Hypothesis HE : accurate_space w u e rnd hyp.
Hypothesis HL : accurate_log e lg.
Hypothesis Hw : w <= / 10000000.
Variable ky : nat.
Variable A : harith.
Hypothesis HA : accurate_harmonics w ky A.
Variables mforce lforce : se3 -> list R -> outcome (list R).
Variable eps : R.
Variable srcs : list (psrc R).
Hypothesis Heps : 0 < eps.
Hypothesis Hn : INR (length srcs) * u <= / 10000.
Hypothesis Hq : 1001 / 1000 * eps < abs_charge srcs <= 2 ^ 41 * eps.
Variable cap fuel h : nat.
Hypothesis Hcap : (1 <= cap)%nat.
Hypothesis Hfuel : (h <= fuel)%nat.
Hypothesis HR : in_refinable_range 3 h (@ps_pos R) srcs.
Variable orders : list nat.
Variable tb0 : tb3.
Hypothesis Htb0 : tables3_after orders = Ok tb0.

Theorem adaptive_rounded3 : exists o,
  (forall r, adaptive_fmm3_r rnd hyp lg A mforce lforce cap fuel eps srcs tb0 r <-> r = Ok o) /\
  abs_charge srcs / 2 ^ f3_order o <= 1001 / 1000 * eps /\ (at_height (f_tree (f3_fmm o)) <= h)%nat /\
  forall m M K x field, space_range h m M srcs -> lists_within K (f3_fmm o) -> length x = 3%nat -> representable rnd x ->
    (exists ol, containing_leaf (N := NumRnd rnd) 3 (f_tree (f3_fmm o)) x = Ok ol) /\
    (forall n, containing_leaf (N := NumRnd rnd) 3 (f_tree (f3_fmm o)) x = Ok (Some n) ->
      exists v, potential3_at_r rnd hyp lg A mforce lforce field srcs o x = Ok v /\
        Rabs (v - direct_potential 3 field (others x srcs) x) <= bound3 w (f3_order o) h (roundings3 ky (f3_order o) cap K (at_height (f_tree (f3_fmm o)))) m (others x srcs) x) /\
    (containing_leaf (N := NumRnd rnd) 3 (f_tree (f3_fmm o)) x = Ok None -> (forall s, In s srcs -> ps_pos s <> x) ->
      exists v, potential3_at_r rnd hyp lg A mforce lforce field srcs o x = Ok v /\
        Rabs (v - direct_potential 3 field srcs x) <= ((1 + u) ^ (length srcs + 1) / ((1 - e) * (1 - u)) - 1) * magnitude3 srcs x).
Proof.
  destruct HE as (E1 & E2 & E3 & E4 & E5).
  assert (P41 : 2 ^ 41 <= 2 ^ 100) by (apply Rle_pow; [lra|lia]).
  destruct (order_chosen rnd hyp lg w u e (conj E1 (conj E2 (conj E3 (conj E4 (conj E5 HL))))) Hw eps srcs Heps Hn) as (p & P1 & P2 & P3 & P4).
  { split; [apply Hq|]. eapply Rle_trans; [apply Hq|]. apply Rmult_le_compat_r; lra. }
  assert (P42 : (p <= 42)%nat).
  { apply Nat.nlt_ge. intros X. specialize (P4 42%nat X). assert (Y : abs_charge srcs / 2 ^ 42 <= eps / 2).
    { apply (Rmult_le_reg_r (2 ^ 42)); [apply pow_lt; lra|]. unfold Rdiv at 1. rewrite Rmult_assoc, Rinv_l by (apply pow_nonzero; lra). rewrite Rmult_1_r.
      eapply Rle_trans; [apply Hq|]. apply Req_le. change 42%nat with (S 41). rewrite <- tech_pow_Rmult. field. }
    lra. }
  destruct (tables3_grown orders tb0 p Htb0 ltac:(lia)) as (tb & T1 & T2 & _).
  destruct (rounded_constructs3 rnd hyp w ky A mforce lforce p tb h cap fuel srcs HD ltac:(lra) HA P2 T2 HR Hcap Hfuel) as (f & Hh & UN).
  exists (Fmm3Obj p f). cbn [f3_order f3_fmm]. split; [|split; [exact P3|split; [exact Hh|]]].
  - intros r. split; [|intros ->].
    + intros X. inversion X as [r0 Er NE Er'|p0 r0 Ep Er NE Er'|p0 tb1 r0 Ep Et Hm Er'].
      * exfalso. apply (NE p). congruence.
      * exfalso. rewrite P1 in Ep. injection Ep as <-. apply (NE tb). congruence.
      * rewrite P1 in Ep. injection Ep as <-. rewrite T1 in Et. injection Et as <-. apply UN in Hm. subst r0. reflexivity.
    + change (Ok (Fmm3Obj p f)) with (omap (Fmm3Obj p) (Ok f)). eapply afr3_make; [exact P1|exact T1|apply UN; reflexivity].
  - intros m M K x field HP HK Hx Hrep. unfold potential3_at_r. cbn [f3_order f3_fmm]. assert (Hf := proj2 (UN _) eq_refl). split; [|split].
    + exact (rounded_lookup_ends3 rnd hyp w u e HD HE ky A HA mforce lforce p P2 h cap fuel K m M srcs HP tb T2 f Hf Hh HK x).
    + intros n CL. exact (rounded_potential_found3 rnd hyp lg w u e HD HE ky A HA mforce lforce p P2 h cap fuel K m M srcs HP tb T2 f Hf Hh HK x Hx Hrep field n CL).
    + intros CL NS. exact (rounded_potential_outside3 rnd hyp lg w u e HE A mforce lforce p h m M srcs HP f x Hx Hrep field HL CL NS).
Qed.
End Constructor.
