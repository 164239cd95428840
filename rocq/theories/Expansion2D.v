(** Model of the two-dimensional series expansions: fmm/series_expansion.hpp 21-75 ([SeriesExpansion<2>]),
    fmm/multipole_expansion.hpp 19-137 ([MultipoleExpansion<2>]), fmm/local_expansion.hpp 16-176
    ([LocalExpansion<2>]).

    [std::complex<double>] is Coquelicot's [C]; rounding is not modelled.  A division by zero or a logarithm of zero
    gives the outcome [NonFinite], an access outside a vector gives [UB]. *)
From Coq Require Import Reals List Arith.
From Coquelicot Require Import Complex.
From Verif Require Import Num Outcome Vec Tables.
Import ListNotations.
Local Open Scope C_scope.
Local Open Scope outcome_scope.

(** Models [std::atan2(y, x)] on finite arguments (signed zeros are not modelled: [atan2 0 x] is [PI] for [x < 0]). *)
Definition atan2 (y x : R) : R :=
  if Rlt_dec 0 x then atan (y / x)
  else if Rlt_dec x 0 then (if Rle_dec 0 y then atan (y / x) + PI else atan (y / x) - PI)%R
  else if Rlt_dec 0 y then (PI / 2)%R
  else if Rlt_dec y 0 then (- (PI / 2))%R
  else 0%R.

(** Models [std::log] of a complex number; [log 0] is not finite. *)
Definition clog (z : C) : outcome C :=
  if Ceq_dec z (RtoC 0) then NonFinite else Ok (ln (Cmod z), atan2 (snd z) (fst z)).

(** Models [a / z] for complex [z]. *)
Definition cdiv (a z : C) : outcome C := if Ceq_dec z (RtoC 0) then NonFinite else Ok (a / z).

(** [Complex z{v[0], v[1]}], e.g. multipole_expansion.hpp 46. *)
Definition cplx (v : list R) : C := (vget v 0, vget v 1).

(** A series expansion, series_expansion.hpp 23-25. *)
Record se2 : Type := mkse { se_ord : nat; se_ctr : C; se_co : list C }.

(** Coefficient access, series_expansion.hpp 72-81: unchecked. *)
Definition se_get (e : se2) (n : nat) : outcome C := of_option (nth_error (se_co e) n).

(** Constructor [SeriesExpansion(center, order)], series_expansion.hpp 45-50: zero coefficients, and the static
    binomial table is grown if needed.  Also [LocalExpansion(center, order)], local_expansion.hpp 26. *)
Definition se_zero (center : list R) (order : nat) : se2 := mkse order (cplx center) (repeat (RtoC 0) (S order)).
Definition se_table (tb : btab) (order : nat) : btab :=
  if bt_max tb <? order then bt_refresh tb order else tb.

(** [operator+=], series_expansion.hpp 53-69. *)
Definition se_add (a b : se2) : outcome se2 :=
  if negb (length (se_co a) =? length (se_co b)) then Throw
  else if Ceq_dec (se_ctr a) (se_ctr b) then Ok (mkse (se_ord a) (se_ctr a) (map2 Cplus (se_co a) (se_co b)))
  else Throw.

(** Inner loop of multipole_expansion.hpp 51-54: [cs] are the coefficients from the current [j] on,
    [pw] is [z_rel_pow]. *)
Fixpoint me2_acc (q : R) (w pw : C) (cs : list C) : list C :=
  match cs with
  | [] => []
  | a :: r => (a - RtoC q * pw) :: me2_acc q w (pw * w) r
  end.

(** Body of the source loop, multipole_expansion.hpp 44-54. *)
Definition me2_add_source (ctr : C) (cs : list C) (s : psrc R) : list C :=
  match cs with
  | [] => []
  | a :: r => let w := cplx (ps_pos s) - ctr in (a + RtoC (ps_q s)) :: me2_acc (ps_q s) w w r
  end.

(** Loop of multipole_expansion.hpp 57-59 (and local_expansion.hpp 69-71): [coefficient j /= j]. *)
Fixpoint div_from (j : nat) (cs : list C) : list C :=
  match cs with
  | [] => []
  | a :: r => (a / RtoC (INR j)) :: div_from (S j) r
  end.
Definition div_tail (cs : list C) : list C :=
  match cs with [] => [] | a :: r => a :: div_from 1 r end.

(** Multipole expansion of a set of sources, multipole_expansion.hpp 38-60. *)
Definition me2_sources (center : list R) (order : nat) (srcs : list (psrc R)) : se2 :=
  mkse order (cplx center)
    (div_tail (fold_left (me2_add_source (cplx center)) srcs (repeat (RtoC 0) (S order)))).

(** [shift], multipole_expansion.hpp 80-98. *)
Definition me2_shift (tb : btab) (e : se2) (shift : C) : outcome (list C) :=
  let pt := pow_table (RtoC 1) Cmult shift (se_ord e) in
  do a0 <- se_get e 0 ;;
  let Q := Re a0 in
  do tl <- omapM (fun l =>
      do sl <- pow_get pt l ;;
      ofold (fun acc k =>
          do a <- se_get e k ;;
          do sp <- pow_get pt (l - k) ;;
          do b <- bt_get tb (l - 1) (k - 1) ;;
          Ok (acc + a * sp * RtoC b))
        (seq 1 l) (- RtoC Q * sl / RtoC (INR l)))
    (seq 1 (se_ord e)) ;;
  Ok (RtoC Q :: tl).

(** Expansion built from other expansions by shifting, multipole_expansion.hpp 63-77.  [expansions.at(0)] throws on an
    empty vector; [std::transform] reads as many shifted coefficients as the result has, so a shorter shifted vector
    is read out of range. *)
Definition me2_merge (tb : btab) (center : list R) (es : list se2) : outcome (se2 * btab) :=
  match es with
  | [] => Throw
  | e0 :: _ =>
    let p := se_ord e0 in
    let tb' := se_table tb p in
    do cs <- ofold (fun cs e =>
        do sh <- me2_shift tb' e (se_ctr e - cplx center) ;;
        if length sh <? length cs then UB else Ok (map2 Cplus cs sh))
      es (repeat (RtoC 0) (S p)) ;;
    Ok (mkse p (cplx center) cs, tb')
  end.

(** Loop of multipole_expansion.hpp 109-112: [ip] is [z_rel_inv_pow]. *)
Fixpoint me2_pot_loop (z ip result : C) (cs : list C) : C :=
  match cs with
  | [] => result
  | a :: r => me2_pot_loop z (ip / z) (result + a * ip) r
  end.

(** [MultipoleExpansion<2>::evaluatePotential], multipole_expansion.hpp 100-117. *)
Definition me2_pot (e : se2) (x : list R) : outcome R :=
  let z := cplx x - se_ctr e in
  do a0 <- se_get e 0 ;;
  do lg <- clog z ;;
  do ip <- cdiv (RtoC 1) z ;;
  Ok (Re (me2_pot_loop z ip (RtoC (Re a0) * lg) (tl (se_co e)))).

(** Loop of multipole_expansion.hpp 129-132. *)
Fixpoint me2_force_loop (z ip result : C) (j : nat) (cs : list C) : C :=
  match cs with
  | [] => result
  | a :: r => me2_force_loop z (ip / z) (result - RtoC (INR j) * a * ip) (S j) r
  end.

(** [MultipoleExpansion<2>::evaluateForcefield], multipole_expansion.hpp 119-137. *)
Definition me2_force (e : se2) (x : list R) : outcome (list R) :=
  let z := cplx x - se_ctr e in
  do a0 <- se_get e 0 ;;
  do r0 <- cdiv (RtoC (Re a0)) z ;;
  do ip <- cdiv (RtoC 1) (z * z) ;;
  let res := me2_force_loop z ip r0 1 (tl (se_co e)) in
  Ok [(- Re res)%R; Im res].

(** Inner loop of local_expansion.hpp 63-66. *)
Fixpoint le2_acc (q : R) (w ip : C) (cs : list C) : list C :=
  match cs with
  | [] => []
  | a :: r => (a - RtoC q * ip) :: le2_acc q w (ip / w) r
  end.

(** Body of the source loop of local_expansion.hpp 56-67. *)
Definition le2_add_source (ctr : C) (cs : list C) (s : psrc R) : outcome (list C) :=
  let w := cplx (ps_pos s) - ctr in
  do ip <- cdiv (RtoC 1) w ;;
  do lg <- clog (- w) ;;
  match cs with
  | [] => Ok []
  | a :: r => Ok ((a + RtoC (ps_q s) * lg) :: le2_acc (ps_q s) w ip r)
  end.

(** Local expansion of a set of sources (P2L), local_expansion.hpp 49-72. *)
Definition le2_sources (center : list R) (order : nat) (srcs : list (psrc R)) : outcome se2 :=
  do cs <- ofold (le2_add_source (cplx center)) srcs (repeat (RtoC 0) (S order)) ;;
  Ok (mkse order (cplx center) (div_tail cs)).

(** [k % 2 == 0 ? 1 : -1], local_expansion.hpp 104, 114. *)
Definition sgn_pow (k : nat) : R := if Nat.even k then 1%R else (-1)%R.

(** [multipoleToLocal], local_expansion.hpp 92-124.  The expansion [this] has the order of [incoming]. *)
Definition le2_m2l_coeffs (tb : btab) (ctr : C) (inc : se2) : outcome (list C) :=
  let z0 := se_ctr inc - ctr in
  let p := se_ord inc in
  do iz <- cdiv (RtoC 1) z0 ;;
  let pt := pow_table (RtoC 1) Cmult iz p in
  do a0 <- se_get inc 0 ;;
  do lg <- clog (- z0) ;;
  do b0 <- ofold (fun acc k =>
      do a <- se_get inc k ;;
      do zp <- pow_get pt k ;;
      Ok (acc + RtoC (sgn_pow k) * a * zp)) (seq 1 p) (a0 * lg) ;;
  do bs <- omapM (fun l =>
      do bl <- ofold (fun acc k =>
          do a <- se_get inc k ;;
          do zp <- pow_get pt k ;;
          do b <- bt_get tb (l + k - 1) (k - 1) ;;
          Ok (acc + RtoC (sgn_pow k) * a * zp * RtoC b))
        (seq 1 (p - 1)) (- a0 / RtoC (INR l)) ;;
      do zl <- pow_get pt l ;;
      Ok (bl * zl))
    (seq 1 p) ;;
  Ok (b0 :: bs).

(** Local expansion from one multipole expansion (M2L), local_expansion.hpp 41-47. *)
Definition le2_m2l (tb : btab) (center : list R) (inc : se2) : outcome (se2 * btab) :=
  let tb' := se_table tb (se_ord inc) in
  if se_ord inc =? 0 then Abort
  else
    do cs <- le2_m2l_coeffs tb' (cplx center) inc ;;
    Ok (mkse (se_ord inc) (cplx center) cs, tb').

(** Local expansion from several multipole expansions, local_expansion.hpp 74-80. *)
Definition le2_m2l_many (tb : btab) (center : list R) (es : list se2) : outcome (se2 * btab) :=
  match es with
  | [] => Throw
  | e0 :: _ =>
    ofold (fun st e =>
        do r <- le2_m2l (snd st) center e ;;
        do s <- se_add (fst st) (fst r) ;;
        Ok (s, snd r))
      es (se_zero center (se_ord e0), se_table tb (se_ord e0))
  end.

(** [shift], local_expansion.hpp 128-139. *)
Definition le2_shift (e : se2) (shift : C) : outcome (list C) :=
  let p := se_ord e in
  ofold (fun cs j =>
      ofold (fun cs k =>
          do a <- of_option (nth_error cs k) ;;
          do b <- of_option (nth_error cs (k + 1)%nat) ;;
          Ok (lset cs k (a - shift * b)))
        (seq (p - j - 1)%nat (p - (p - j - 1))%nat) cs)
    (seq 0 p) (se_co e).

(** Local expansion from a local expansion (L2L), local_expansion.hpp 82-90. *)
Definition le2_l2l (tb : btab) (center : list R) (inc : se2) : outcome (se2 * btab) :=
  let tb' := se_table tb (se_ord inc) in
  if se_ord inc =? 0 then Abort
  else
    do cs <- le2_shift inc (se_ctr inc - cplx center) ;;
    Ok (mkse (se_ord inc) (cplx center) cs, tb').

(** Loop of local_expansion.hpp 149-152. *)
Fixpoint le2_pot_loop (z pw result : C) (cs : list C) : C :=
  match cs with
  | [] => result
  | a :: r => le2_pot_loop z (pw * z) (result + a * pw) r
  end.

(** [LocalExpansion<2>::evaluatePotential], local_expansion.hpp 141-157. *)
Definition le2_pot (e : se2) (x : list R) : R :=
  Re (le2_pot_loop (cplx x - se_ctr e) (RtoC 1) (RtoC 0) (se_co e)).

(** Loop of local_expansion.hpp 169-172. *)
Fixpoint le2_force_loop (z pw result : C) (k : nat) (cs : list C) : C :=
  match cs with
  | [] => result
  | a :: r => le2_force_loop z (pw * z) (result + RtoC (INR k) * a * pw) (S k) r
  end.

(** [LocalExpansion<2>::evaluateForcefield], local_expansion.hpp 160-176. *)
Definition le2_force (e : se2) (x : list R) : list R :=
  let res := le2_force_loop (cplx x - se_ctr e) (RtoC 1) (RtoC 0) 1 (tl (se_co e)) in
  [(- Re res)%R; Im res].
