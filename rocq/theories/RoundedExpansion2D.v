(** Model of the two-dimensional series expansions in rounded arithmetic: the operations of [Expansion2D] in the order in which
    the code performs them, each by an arbitrary function of a record [carith].  fmm/series_expansion.hpp 45-81,
    fmm/multipole_expansion.hpp 38-137, fmm/local_expansion.hpp 26-176.

    Overflow, underflow and signed zeros are not modelled.  The outcome [NonFinite] stands for the division by zero and the
    logarithm of zero, [UB] for an access outside a vector.  The static table holds the exact binomials ([Tables]); the error of
    gsl_sf_choose is applied when an entry is read, which is the same because every entry is written with one value. *)
From Coq Require Import Reals List Arith.
From Coquelicot Require Import Complex.
From Verif Require Import Num Outcome Vec Tables Expansion2D Orthtree AdaptiveTree Schedule Fields FmmPasses RoundedFields RoundedTree.
Import ListNotations.
Local Open Scope R_scope.
Local Open Scope outcome_scope.

(** The operations of [std::complex<double>] that the code uses, and gsl_sf_choose (fmm_tables.hpp 53) as a perturbation of the
    exact value. *)
Record carith : Type := mkca {
  c_add : C -> C -> C;            (* complex + complex, += *)
  c_sub : C -> C -> C;            (* complex - complex, -= *)
  c_mul : C -> C -> C;            (* complex * complex, *= *)
  c_div : C -> C -> C;            (* complex / complex, double / complex, /= *)
  c_addr : C -> R -> C;           (* complex += double *)
  c_scale : R -> C -> C;          (* double * complex, complex * double *)
  c_divr : C -> R -> C;           (* complex / double, /= double *)
  c_log : C -> C;                 (* std::log *)
  c_bin : nat -> nat -> R -> R    (* gsl_sf_choose(n, k), for the value C(n, k) *)
}.

Section Rounded.
Variable A : carith.

(** A division by zero and the logarithm of zero are not finite. *)
Definition cdiv_r (a z : C) : outcome C := if Ceq_dec z (RtoC 0) then NonFinite else Ok (c_div A a z).
Definition clog_r (z : C) : outcome C := if Ceq_dec z (RtoC 0) then NonFinite else Ok (c_log A z).
(** Reading the binomial table, fmm_tables.hpp 62-64. *)
Definition bin_get (tb : btab) (n k : nat) : outcome R := do b <- bt_get tb n k ;; Ok (c_bin A n k b).

(** [operator+=], series_expansion.hpp 53-69. *)
Definition se_add_r (a b : se2) : outcome se2 :=
  if negb (length (se_co a) =? length (se_co b))%nat then Throw
  else if Ceq_dec (se_ctr a) (se_ctr b) then Ok (mkse (se_ord a) (se_ctr a) (map2 (c_add A) (se_co a) (se_co b)))
  else Throw.

(** Inner loop of multipole_expansion.hpp 51-54: [cs] are the coefficients from the current [j] on, [pw] is [z_rel_pow]. *)
Fixpoint me2_acc_r (q : R) (w pw : C) (cs : list C) : list C :=
  match cs with
  | [] => []
  | a :: r => c_sub A a (c_scale A q pw) :: me2_acc_r q w (c_mul A pw w) r
  end.
(** Body of the source loop, multipole_expansion.hpp 44-54. *)
Definition me2_add_source_r (ctr : C) (cs : list C) (s : psrc R) : list C :=
  match cs with
  | [] => []
  | a :: r => let w := c_sub A (cplx (ps_pos s)) ctr in c_addr A a (ps_q s) :: me2_acc_r (ps_q s) w w r
  end.
(** Loop of multipole_expansion.hpp 57-59 and local_expansion.hpp 69-71: [coefficient j /= j]. *)
Fixpoint div_from_r (j : nat) (cs : list C) : list C :=
  match cs with
  | [] => []
  | a :: r => c_divr A a (INR j) :: div_from_r (S j) r
  end.
Definition div_tail_r (cs : list C) : list C := match cs with [] => [] | a :: r => a :: div_from_r 1 r end.
(** Multipole expansion of a set of sources, multipole_expansion.hpp 38-60. *)
Definition me2_sources_r (center : list R) (order : nat) (srcs : list (psrc R)) : se2 :=
  mkse order (cplx center) (div_tail_r (fold_left (me2_add_source_r (cplx center)) srcs (repeat (RtoC 0) (S order)))).

(** [shift], multipole_expansion.hpp 80-98. *)
Definition me2_shift_r (tb : btab) (e : se2) (shift : C) : outcome (list C) :=
  let pt := pow_table (RtoC 1) (c_mul A) shift (se_ord e) in
  do a0 <- se_get e 0 ;;
  let Q := Re a0 in
  do tl <- omapM (fun l =>
      do sl <- pow_get pt l ;;
      ofold (fun acc k =>
          do a <- se_get e k ;;
          do sp <- pow_get pt (l - k) ;;
          do b <- bin_get tb (l - 1) (k - 1) ;;
          Ok (c_add A acc (c_scale A b (c_mul A a sp))))
        (seq 1 l) (c_divr A (c_scale A (- Q) sl) (INR l)))
    (seq 1 (se_ord e)) ;;
  Ok (RtoC Q :: tl).
(** Expansion built from other expansions by shifting, multipole_expansion.hpp 63-77, cf. [Expansion2D.me2_merge]. *)
Definition me2_merge_r (tb : btab) (center : list R) (es : list se2) : outcome (se2 * btab) :=
  match es with
  | [] => Throw
  | e0 :: _ =>
    let p := se_ord e0 in
    let tb' := se_table tb p in
    do cs <- ofold (fun cs e =>
        do sh <- me2_shift_r tb' e (c_sub A (se_ctr e) (cplx center)) ;;
        if (length sh <? length cs)%nat then UB else Ok (map2 (c_add A) cs sh))
      es (repeat (RtoC 0) (S p)) ;;
    Ok (mkse p (cplx center) cs, tb')
  end.

(** Loop of multipole_expansion.hpp 109-112: [ip] is [z_rel_inv_pow]. *)
Fixpoint me2_pot_loop_r (z ip result : C) (cs : list C) : C :=
  match cs with
  | [] => result
  | a :: r => me2_pot_loop_r z (c_div A ip z) (c_add A result (c_mul A a ip)) r
  end.
(** [MultipoleExpansion<2>::evaluatePotential], multipole_expansion.hpp 100-117. *)
Definition me2_pot_r (e : se2) (x : list R) : outcome R :=
  let z := c_sub A (cplx x) (se_ctr e) in
  do a0 <- se_get e 0 ;;
  do lg <- clog_r z ;;
  do ip <- cdiv_r (RtoC 1) z ;;
  Ok (Re (me2_pot_loop_r z ip (c_scale A (Re a0) lg) (tl (se_co e)))).

(** Loop of multipole_expansion.hpp 129-132. *)
Fixpoint me2_force_loop_r (z ip result : C) (j : nat) (cs : list C) : C :=
  match cs with
  | [] => result
  | a :: r => me2_force_loop_r z (c_div A ip z) (c_sub A result (c_mul A (c_scale A (INR j) a) ip)) (S j) r
  end.
(** [MultipoleExpansion<2>::evaluateForcefield], multipole_expansion.hpp 119-137. *)
Definition me2_force_r (e : se2) (x : list R) : outcome (list R) :=
  let z := c_sub A (cplx x) (se_ctr e) in
  do a0 <- se_get e 0 ;;
  do r0 <- cdiv_r (RtoC (Re a0)) z ;;
  do ip <- cdiv_r (RtoC 1) (c_mul A z z) ;;
  let res := me2_force_loop_r z ip r0 1 (tl (se_co e)) in
  Ok [- Re res; Im res].

(** Inner loop of local_expansion.hpp 63-66. *)
Fixpoint le2_acc_r (q : R) (w ip : C) (cs : list C) : list C :=
  match cs with
  | [] => []
  | a :: r => c_sub A a (c_scale A q ip) :: le2_acc_r q w (c_div A ip w) r
  end.
(** Body of the source loop of local_expansion.hpp 56-67. *)
Definition le2_add_source_r (ctr : C) (cs : list C) (s : psrc R) : outcome (list C) :=
  let w := c_sub A (cplx (ps_pos s)) ctr in
  do ip <- cdiv_r (RtoC 1) w ;;
  do lg <- clog_r (- w)%C ;;
  match cs with
  | [] => Ok []
  | a :: r => Ok (c_add A a (c_scale A (ps_q s) lg) :: le2_acc_r (ps_q s) w ip r)
  end.
(** Local expansion of a set of sources (P2L), local_expansion.hpp 49-72. *)
Definition le2_sources_r (center : list R) (order : nat) (srcs : list (psrc R)) : outcome se2 :=
  do cs <- ofold (le2_add_source_r (cplx center)) srcs (repeat (RtoC 0) (S order)) ;;
  Ok (mkse order (cplx center) (div_tail_r cs)).

(** [multipoleToLocal], local_expansion.hpp 92-124; the changes of sign are exact. *)
Definition le2_m2l_coeffs_r (tb : btab) (ctr : C) (inc : se2) : outcome (list C) :=
  let z0 := c_sub A (se_ctr inc) ctr in
  let p := se_ord inc in
  do iz <- cdiv_r (RtoC 1) z0 ;;
  let pt := pow_table (RtoC 1) (c_mul A) iz p in
  do a0 <- se_get inc 0 ;;
  do lg <- clog_r (- z0)%C ;;
  do b0 <- ofold (fun acc k =>
      do a <- se_get inc k ;;
      do zp <- pow_get pt k ;;
      Ok (c_add A acc (c_mul A (c_scale A (sgn_pow k) a) zp))) (seq 1 p) (c_mul A a0 lg) ;;
  do bs <- omapM (fun l =>
      do bl <- ofold (fun acc k =>
          do a <- se_get inc k ;;
          do zp <- pow_get pt k ;;
          do b <- bin_get tb (l + k - 1) (k - 1) ;;
          Ok (c_add A acc (c_scale A b (c_mul A (c_scale A (sgn_pow k) a) zp))))
        (seq 1 (p - 1)) (c_divr A (- a0)%C (INR l)) ;;
      do zl <- pow_get pt l ;;
      Ok (c_mul A bl zl))
    (seq 1 p) ;;
  Ok (b0 :: bs).
(** Local expansion from one multipole expansion (M2L), local_expansion.hpp 41-47. *)
Definition le2_m2l_r (tb : btab) (center : list R) (inc : se2) : outcome (se2 * btab) :=
  let tb' := se_table tb (se_ord inc) in
  if (se_ord inc =? 0)%nat then Abort
  else
    do cs <- le2_m2l_coeffs_r tb' (cplx center) inc ;;
    Ok (mkse (se_ord inc) (cplx center) cs, tb').
(** Local expansion from several multipole expansions, local_expansion.hpp 74-80. *)
Definition le2_m2l_many_r (tb : btab) (center : list R) (es : list se2) : outcome (se2 * btab) :=
  match es with
  | [] => Throw
  | e0 :: _ =>
    ofold (fun st e =>
        do r <- le2_m2l_r (snd st) center e ;;
        do s <- se_add_r (fst st) (fst r) ;;
        Ok (s, snd r))
      es (se_zero center (se_ord e0), se_table tb (se_ord e0))
  end.

(** [shift], local_expansion.hpp 128-139. *)
Definition le2_shift_r (e : se2) (shift : C) : outcome (list C) :=
  let p := se_ord e in
  ofold (fun cs j =>
      ofold (fun cs k =>
          do a <- of_option (nth_error cs k) ;;
          do b <- of_option (nth_error cs (k + 1)%nat) ;;
          Ok (lset cs k (c_sub A a (c_mul A shift b))))
        (seq (p - j - 1)%nat (p - (p - j - 1))%nat) cs)
    (seq 0 p) (se_co e).
(** Local expansion from a local expansion (L2L), local_expansion.hpp 82-90. *)
Definition le2_l2l_r (tb : btab) (center : list R) (inc : se2) : outcome (se2 * btab) :=
  let tb' := se_table tb (se_ord inc) in
  if (se_ord inc =? 0)%nat then Abort
  else
    do cs <- le2_shift_r inc (c_sub A (se_ctr inc) (cplx center)) ;;
    Ok (mkse (se_ord inc) (cplx center) cs, tb').

(** Loop of local_expansion.hpp 149-152. *)
Fixpoint le2_pot_loop_r (z pw result : C) (cs : list C) : C :=
  match cs with
  | [] => result
  | a :: r => le2_pot_loop_r z (c_mul A pw z) (c_add A result (c_mul A a pw)) r
  end.
(** [LocalExpansion<2>::evaluatePotential], local_expansion.hpp 141-157. *)
Definition le2_pot_r (e : se2) (x : list R) : R :=
  Re (le2_pot_loop_r (c_sub A (cplx x) (se_ctr e)) (RtoC 1) (RtoC 0) (se_co e)).
(** Loop of local_expansion.hpp 169-172. *)
Fixpoint le2_force_loop_r (z pw result : C) (k : nat) (cs : list C) : C :=
  match cs with
  | [] => result
  | a :: r => le2_force_loop_r z (c_mul A pw z) (c_add A result (c_mul A (c_scale A (INR k) a) pw)) (S k) r
  end.
(** [LocalExpansion<2>::evaluateForcefield], local_expansion.hpp 160-176. *)
Definition le2_force_r (e : se2) (x : list R) : list R :=
  let res := le2_force_loop_r (c_sub A (cplx x) (se_ctr e)) (RtoC 1) (RtoC 0) 1 (tl (se_co e)) in
  [- Re res; Im res].

(** The operations on expansions of order [p], cf. [FmmTree2D.ops2]; the constructors of adaptive_fmm_tree.hpp 156-219 and
    569-583 call them. *)
Definition ops2_r (p : nat) : ops se2 se2 btab := {|
  o_default := mkse 0 (RtoC 0) [];                                          (* multipole_expansion.hpp 25 *)
  o_p2m := fun tb c srcs => Ok (me2_sources_r c p srcs, se_table tb p);     (* multipole_expansion.hpp 38-60 *)
  o_m2m := fun tb c es => me2_merge_r tb c es;                              (* multipole_expansion.hpp 63-77 *)
  o_zero := fun tb c => (se_zero c p, se_table tb p);                       (* local_expansion.hpp 26 *)
  o_m2l := fun tb c es => le2_m2l_many_r tb c es;                           (* local_expansion.hpp 74-80 *)
  o_l2l := fun tb c e => le2_l2l_r tb c e;                                  (* local_expansion.hpp 82-90 *)
  o_p2l := fun tb c srcs => do e <- le2_sources_r c p srcs ;; Ok (e, se_table tb p);  (* local_expansion.hpp 49-72 *)
  o_size := fun e => length (se_co e);
  o_add := se_add_r;                                                        (* series_expansion.hpp 53-69 *)
  o_mpot := me2_pot_r;                                                      (* multipole_expansion.hpp 100-117 *)
  o_lpot := fun e x => Ok (le2_pot_r e x);                                  (* local_expansion.hpp 141-157 *)
  o_mforce := me2_force_r;                                                  (* multipole_expansion.hpp 119-137 *)
  o_lforce := fun e x => Ok (le2_force_r e x)                               (* local_expansion.hpp 160-176 *)
|}.
End Rounded.

(** The tree of fmm/adaptive_fmm_tree.hpp in rounded arithmetic, for any operations on expansions. *)
Section Tree.
Variable rnd : R -> R.
Variable hyp : list R -> R.
Variable lg : R -> R.
Context {ME LE Tb : Type}.
Variable o : ops ME LE Tb.
Variable d : nat.
Notation NN := (NumRnd rnd).
Notation DD := (DistRnd hyp).

(** The possible results of the constructor, adaptive_fmm_tree.hpp 108-220, cf. [FmmPasses.make_fmm]. *)
Inductive make_fmm_r (cap fuel : nat) (srcs : list (psrc R)) (tb : Tb) : outcome (@fmm ME LE Tb) -> Prop :=
| mr_build r : build_adaptive (N := NN) d (@ps_pos R) cap fuel srcs = r -> (forall t, r <> Ok t) ->
    make_fmm_r cap fuel srcs tb (omap (fun t => Fmm t nl_empty (mem0 o t tb)) r)
| mr_lists t r : build_adaptive (N := NN) d (@ps_pos R) cap fuel srcs = Ok t -> all_lists (N := NN) (D := DD) d t = r -> (forall ls, r <> Ok ls) ->
    make_fmm_r cap fuel srcs tb (omap (fun ls => Fmm t ls (mem0 o t tb)) r)
| mr_leaf t ls : build_adaptive (N := NN) d (@ps_pos R) cap fuel srcs = Ok t -> all_lists (N := NN) (D := DD) d t = Ok ls ->
    (length srcs <= cap)%nat -> make_fmm_r cap fuel srcs tb (Ok (Fmm t ls (mem0 o t tb)))
| mr_assert t ls : build_adaptive (N := NN) d (@ps_pos R) cap fuel srcs = Ok t -> all_lists (N := NN) (D := DD) d t = Ok ls ->
    (cap < length srcs)%nat -> (at_height t <> length (at_nodes t) \/ (at_height t + 1)%nat <> length (at_leaves t)) ->
    make_fmm_r cap fuel srcs tb Abort
| mr_passes t ls r : build_adaptive (N := NN) d (@ps_pos R) cap fuel srcs = Ok t -> all_lists (N := NN) (D := DD) d t = Ok ls ->
    (cap < length srcs)%nat -> at_height t = length (at_nodes t) -> (at_height t + 1)%nat = length (at_leaves t) ->
    passes_result (regions o d t ls) (mem0 o t tb) r ->
    make_fmm_r cap fuel srcs tb (omap (fun m => Fmm t ls m) r).

(** [evaluatePotential], adaptive_fmm_tree.hpp 222-269; [field] is [field_type]. *)
Definition eval_pot_r (field : bool) (srcs : list (psrc R)) (f : @fmm ME LE Tb) (x : list R) : outcome R :=
  do cl <- containing_leaf (N := NN) d (f_tree f) x ;;
  match cl with
  | None => potential_sum_r rnd hyp lg d field false srcs x
  | Some L =>
      do le <- of_option (m_le (f_mem f) (an_addr L)) ;;
      do p0 <- o_lpot o le x ;;
      do p1 <- ofold (fun pot q =>
          do e <- of_option (m_me (f_mem f) q) ;;
          do v <- o_mpot o e x ;;
          Ok (rnd (pot + v))) (nl_W (f_lists f) (an_addr L)) p0 ;;
      do p2 <- ofold (fun pot q =>
          do n <- of_option (lookup (f_tree f) q) ;;
          if an_leaf n then
            do v <- potential_sum_r rnd hyp lg d true (addr_eqb q (an_addr L)) (an_srcs n) x ;;
            Ok (rnd (pot + v))
          else UB) (nl_near (f_lists f) (an_addr L)) p1 ;;
      Ok (if field then p2 else - p2)
  end.
(** [evaluateForcefield], adaptive_fmm_tree.hpp 271-318; [eps] is [force_smoothing_eps]. *)
Definition eval_force_r (field : bool) (eps : R) (srcs : list (psrc R)) (f : @fmm ME LE Tb) (x : list R) : outcome (list R) :=
  do cl <- containing_leaf (N := NN) d (f_tree f) x ;;
  match cl with
  | None => forcefield_sum_r rnd hyp d field false eps srcs x
  | Some L =>
      do le <- of_option (m_le (f_mem f) (an_addr L)) ;;
      do p0 <- o_lforce o le x ;;
      do p1 <- ofold (fun frc q =>
          do e <- of_option (m_me (f_mem f) q) ;;
          do v <- o_mforce o e x ;;
          Ok (vadd_r rnd frc v)) (nl_W (f_lists f) (an_addr L)) p0 ;;
      do p2 <- ofold (fun frc q =>
          do n <- of_option (lookup (f_tree f) q) ;;
          if an_leaf n then
            do v <- forcefield_sum_r rnd hyp d true (addr_eqb q (an_addr L)) eps (an_srcs n) x ;;
            Ok (vadd_r rnd frc v)
          else UB) (nl_near (f_lists f) (an_addr L)) p1 ;;
      Ok (if field then p2 else vneg_r rnd p2)
  end.
End Tree.
