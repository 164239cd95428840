(** Model of the two-dimensional series expansions in IEEE doubles: the operations of [Expansion2D] in the order in which the code performs
    them.  fmm/series_expansion.hpp 45-81, fmm/multipole_expansion.hpp 38-137, fmm/local_expansion.hpp 26-176.

    A complex number is the pair of its parts.  Sums, differences and products with a double act on the parts.  The product and the quotient of two
    complex numbers, the complex logarithm and gsl_sf_choose are arbitrary functions on doubles.  Division by zero, overflow and underflow give the
    values that these functions give; [UB] is an access outside a vector. *)
From Coq Require Import List Bool ZArith Arith.
From Verif Require Import Num Outcome Vec Tables.
From Coq Require Import Floats.
Import ListNotations.
Local Open Scope float_scope.
Local Open Scope outcome_scope.

Definition CF : Type := (float * float)%type.
Record cfarith : Type := mkcf {
  f_mul : CF -> CF -> CF;              (* complex * complex, *= *)
  f_div : CF -> CF -> CF;              (* complex / complex, double / complex, /= *)
  f_log : CF -> CF;                    (* std::log *)
  f_choose : nat -> nat -> float       (* gsl_sf_choose *)
}.

Definition cadd (a b : CF) : CF := (fst a + fst b, snd a + snd b).
Definition csub (a b : CF) : CF := (fst a - fst b, snd a - snd b).
Definition cneg (a : CF) : CF := (- fst a, - snd a).
Definition cscale (q : float) (a : CF) : CF := (q * fst a, q * snd a).
Definition cdivr (a : CF) (q : float) : CF := (fst a / q, snd a / q).
(** [Complex z{v[0], v[1]}], e.g. multipole_expansion.hpp 46. *)
Definition cplxF (v : list float) : CF := (nth 0 v 0, nth 1 v 0).
(** [(double)j]. *)
Definition nat_float (n : nat) : float := float_of_Z (Z.of_nat n).
Definition zeroC : CF := (0, 0).
Definition oneC : CF := (1, 0).

(** A series expansion, series_expansion.hpp 23-25, and its coefficients, 72-81. *)
Record seF : Type := mkseF { sf_ord : nat; sf_ctr : CF; sf_co : list CF }.
Definition sf_get (e : seF) (n : nat) : outcome CF := of_option (nth_error (sf_co e) n).

Section Doubles.
Variable A : cfarith.

(** [BinomialTable], fmm_tables.hpp 34-66, cf. [Tables.btab]. *)
Record btabF : Type := mkbtF { bf_max : nat; bf_tab : list float }.
Definition bf_fill (order : nat) (tab : list float) : list float :=
  fold_left (fun t n => fold_left (fun t' k => lset t' (bt_index n k) (f_choose A n k)) (seq 0 (S n)) t) (seq 0 (S order)) tab.
Definition bf_refresh (tb : btabF) (order : nat) : btabF :=
  if (order <=? bf_max tb)%nat then tb else mkbtF order (bf_fill order (resize 0 (bf_tab tb) (((2 * order + 1) * (2 * order + 2)) / 2)%nat)).
Definition bf_get (tb : btabF) (n k : nat) : outcome float := of_option (nth_error (bf_tab tb) (bt_index n k)).
(** [SeriesExpansion(center, order)], series_expansion.hpp 45-50. *)
Definition sf_table (tb : btabF) (order : nat) : btabF := if (bf_max tb <? order)%nat then bf_refresh tb order else tb.
Definition sf_zero (center : list float) (order : nat) : seF := mkseF order (cplxF center) (repeat zeroC (S order)).

(** Comparison of centers, series_expansion.hpp 57. *)
Definition same_center (a b : CF) : bool := (PrimFloat.eqb (fst a) (fst b) && PrimFloat.eqb (snd a) (snd b))%bool.
(** [operator+=], series_expansion.hpp 53-69. *)
Definition sf_add (a b : seF) : outcome seF :=
  if negb (length (sf_co a) =? length (sf_co b))%nat then Throw
  else if same_center (sf_ctr a) (sf_ctr b) then Ok (mkseF (sf_ord a) (sf_ctr a) (map2 cadd (sf_co a) (sf_co b)))
  else Throw.

(** Inner loop of multipole_expansion.hpp 51-54. *)
Fixpoint me2_accF (q : float) (w pw : CF) (cs : list CF) : list CF :=
  match cs with
  | [] => []
  | a :: r => csub a (cscale q pw) :: me2_accF q w (f_mul A pw w) r
  end.
(** Body of the source loop, multipole_expansion.hpp 44-54. *)
Definition me2_add_sourceF (ctr : CF) (cs : list CF) (s : psrc float) : list CF :=
  match cs with
  | [] => []
  | a :: r => let w := csub (cplxF (ps_pos s)) ctr in (fst a + ps_q s, snd a) :: me2_accF (ps_q s) w w r
  end.
(** Loop of multipole_expansion.hpp 57-59 and local_expansion.hpp 69-71. *)
Fixpoint div_fromF (j : nat) (cs : list CF) : list CF :=
  match cs with
  | [] => []
  | a :: r => cdivr a (nat_float j) :: div_fromF (S j) r
  end.
Definition div_tailF (cs : list CF) : list CF := match cs with [] => [] | a :: r => a :: div_fromF 1 r end.
(** Multipole expansion of a set of sources, multipole_expansion.hpp 38-60. *)
Definition me2_sourcesF (center : list float) (order : nat) (srcs : list (psrc float)) : seF :=
  mkseF order (cplxF center) (div_tailF (fold_left (me2_add_sourceF (cplxF center)) srcs (repeat zeroC (S order)))).

(** [shift], multipole_expansion.hpp 80-98. *)
Definition me2_shiftF (tb : btabF) (e : seF) (shift : CF) : outcome (list CF) :=
  let pt := pow_table oneC (f_mul A) shift (sf_ord e) in
  do a0 <- sf_get e 0 ;;
  let Q := fst a0 in
  do tl <- omapM (fun l =>
      do sl <- pow_get pt l ;;
      ofold (fun acc k =>
          do a <- sf_get e k ;;
          do sp <- pow_get pt (l - k) ;;
          do b <- bf_get tb (l - 1) (k - 1) ;;
          Ok (cadd acc (cscale b (f_mul A a sp))))
        (seq 1 l) (cdivr (cscale (- Q) sl) (nat_float l)))
    (seq 1 (sf_ord e)) ;;
  Ok ((Q, 0) :: tl).
(** Expansion built from other expansions by shifting, multipole_expansion.hpp 63-77. *)
Definition me2_mergeF (tb : btabF) (center : list float) (es : list seF) : outcome (seF * btabF) :=
  match es with
  | [] => Throw
  | e0 :: _ =>
    let p := sf_ord e0 in
    let tb' := sf_table tb p in
    do cs <- ofold (fun cs e =>
        do sh <- me2_shiftF tb' e (csub (sf_ctr e) (cplxF center)) ;;
        if (length sh <? length cs)%nat then UB else Ok (map2 cadd cs sh))
      es (repeat zeroC (S p)) ;;
    Ok (mkseF p (cplxF center) cs, tb')
  end.

(** Loop of multipole_expansion.hpp 109-112. *)
Fixpoint me2_pot_loopF (z ip result : CF) (cs : list CF) : CF :=
  match cs with
  | [] => result
  | a :: r => me2_pot_loopF z (f_div A ip z) (cadd result (f_mul A a ip)) r
  end.
(** [MultipoleExpansion<2>::evaluatePotential], multipole_expansion.hpp 100-117. *)
Definition me2_potF (e : seF) (x : list float) : outcome float :=
  let z := csub (cplxF x) (sf_ctr e) in
  do a0 <- sf_get e 0 ;;
  Ok (fst (me2_pot_loopF z (f_div A oneC z) (cscale (fst a0) (f_log A z)) (tl (sf_co e)))).
(** Loop of multipole_expansion.hpp 129-132. *)
Fixpoint me2_force_loopF (z ip result : CF) (j : nat) (cs : list CF) : CF :=
  match cs with
  | [] => result
  | a :: r => me2_force_loopF z (f_div A ip z) (csub result (f_mul A (cscale (nat_float j) a) ip)) (S j) r
  end.
(** [MultipoleExpansion<2>::evaluateForcefield], multipole_expansion.hpp 119-137. *)
Definition me2_forceF (e : seF) (x : list float) : outcome (list float) :=
  let z := csub (cplxF x) (sf_ctr e) in
  do a0 <- sf_get e 0 ;;
  let res := me2_force_loopF z (f_div A oneC (f_mul A z z)) (f_div A (fst a0, 0) z) 1 (tl (sf_co e)) in
  Ok [- fst res; snd res].

(** Inner loop of local_expansion.hpp 63-66. *)
Fixpoint le2_accF (q : float) (w pw : CF) (cs : list CF) : list CF :=
  match cs with
  | [] => []
  | a :: r => csub a (cscale q pw) :: le2_accF q w (f_div A pw w) r
  end.
(** Body of the source loop, local_expansion.hpp 56-66. *)
Definition le2_add_sourceF (ctr : CF) (cs : list CF) (s : psrc float) : list CF :=
  match cs with
  | [] => []
  | a :: r => let w := csub (cplxF (ps_pos s)) ctr in
              cadd a (cscale (ps_q s) (f_log A (cneg w))) :: le2_accF (ps_q s) w (f_div A oneC w) r
  end.
(** Local expansion of a set of sources, local_expansion.hpp 49-72. *)
Definition le2_sourcesF (center : list float) (order : nat) (srcs : list (psrc float)) : seF :=
  mkseF order (cplxF center) (div_tailF (fold_left (le2_add_sourceF (cplxF center)) srcs (repeat zeroC (S order)))).

(** [multipoleToLocal], local_expansion.hpp 92-124. *)
Definition signF (k : nat) : float := if Nat.even k then 1 else (-1).
Definition le2_m2l_coeffsF (tb : btabF) (ctr : CF) (inc : seF) : outcome (list CF) :=
  let z0 := csub (sf_ctr inc) ctr in
  let p := sf_ord inc in
  let pt := pow_table oneC (f_mul A) (f_div A oneC z0) p in
  do a0 <- sf_get inc 0 ;;
  do b0 <- ofold (fun acc k =>
      do a <- sf_get inc k ;;
      do zp <- pow_get pt k ;;
      Ok (cadd acc (f_mul A (cscale (signF k) a) zp))) (seq 1 p) (f_mul A a0 (f_log A (cneg z0))) ;;
  do bs <- omapM (fun l =>
      do bl <- ofold (fun acc k =>
          do a <- sf_get inc k ;;
          do zp <- pow_get pt k ;;
          do b <- bf_get tb (l + k - 1) (k - 1) ;;
          Ok (cadd acc (cscale b (f_mul A (cscale (signF k) a) zp))))
        (seq 1 (p - 1)) (cdivr (cneg a0) (nat_float l)) ;;
      do zl <- pow_get pt l ;;
      Ok (f_mul A bl zl))
    (seq 1 p) ;;
  Ok (b0 :: bs).
(** Local expansion from one multipole expansion, local_expansion.hpp 41-47, and from several, 74-80. *)
Definition le2_m2lF (tb : btabF) (center : list float) (inc : seF) : outcome (seF * btabF) :=
  let tb' := sf_table tb (sf_ord inc) in
  if (sf_ord inc =? 0)%nat then Abort
  else do cs <- le2_m2l_coeffsF tb' (cplxF center) inc ;; Ok (mkseF (sf_ord inc) (cplxF center) cs, tb').
Definition le2_m2l_manyF (tb : btabF) (center : list float) (es : list seF) : outcome (seF * btabF) :=
  match es with
  | [] => Throw
  | e0 :: _ =>
    ofold (fun st e =>
        do r <- le2_m2lF (snd st) center e ;;
        do s <- sf_add (fst st) (fst r) ;;
        Ok (s, snd r))
      es (sf_zero center (sf_ord e0), sf_table tb (sf_ord e0))
  end.

(** [shift], local_expansion.hpp 128-139. *)
Definition le2_shiftF (e : seF) (shift : CF) : outcome (list CF) :=
  let p := sf_ord e in
  ofold (fun cs j =>
      ofold (fun cs k =>
          do a <- of_option (nth_error cs k) ;;
          do b <- of_option (nth_error cs (k + 1)%nat) ;;
          Ok (lset cs k (csub a (f_mul A shift b))))
        (seq (p - j - 1)%nat (p - (p - j - 1))%nat) cs)
    (seq 0 p) (sf_co e).
(** Local expansion from a local expansion, local_expansion.hpp 82-90. *)
Definition le2_l2lF (tb : btabF) (center : list float) (inc : seF) : outcome (seF * btabF) :=
  let tb' := sf_table tb (sf_ord inc) in
  if (sf_ord inc =? 0)%nat then Abort
  else do cs <- le2_shiftF inc (csub (sf_ctr inc) (cplxF center)) ;; Ok (mkseF (sf_ord inc) (cplxF center) cs, tb').

(** Loop of local_expansion.hpp 149-152. *)
Fixpoint le2_pot_loopF (z pw result : CF) (cs : list CF) : CF :=
  match cs with
  | [] => result
  | a :: r => le2_pot_loopF z (f_mul A pw z) (cadd result (f_mul A a pw)) r
  end.
(** [LocalExpansion<2>::evaluatePotential], local_expansion.hpp 141-157. *)
Definition le2_potF (e : seF) (x : list float) : float :=
  fst (le2_pot_loopF (csub (cplxF x) (sf_ctr e)) oneC zeroC (sf_co e)).
(** Loop of local_expansion.hpp 169-172. *)
Fixpoint le2_force_loopF (z pw result : CF) (k : nat) (cs : list CF) : CF :=
  match cs with
  | [] => result
  | a :: r => le2_force_loopF z (f_mul A pw z) (cadd result (f_mul A (cscale (nat_float k) a) pw)) (S k) r
  end.
(** [LocalExpansion<2>::evaluateForcefield], local_expansion.hpp 160-176. *)
Definition le2_forceF (e : seF) (x : list float) : list float :=
  let res := le2_force_loopF (csub (cplxF x) (sf_ctr e)) oneC zeroC 1 (tl (sf_co e)) in
  [- fst res; snd res].
End Doubles.
