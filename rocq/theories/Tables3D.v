(** Model of the tables used by the three-dimensional expansions: fmm/fmm_general.hpp 18-74 ([A_coeff] and the sign
    functions), fmm/fmm_tables.hpp 68-263 ([YlmTable], [YlmDerivTable], [AlmTable], [SignTable]) and the static tables of
    fmm/series_expansion.hpp 103-106, 128-145.

    Rounding is not modelled: [double] arithmetic is exact arithmetic on [R].  32-bit overflow of the index
    computations is not modelled (the tables cannot be built for orders above 42, see [gsl_fact]). *)
From Coq Require Import Reals List Arith ZArith.
From Coquelicot Require Import Complex Derive.
From Verif Require Import Outcome Tables.
Import ListNotations.
Local Open Scope Z_scope.
Local Open Scope outcome_scope.

(** The values of the loop variable of [for (int i = a; i <= b; ++i)]. *)
Definition zrange (a b : Z) : list Z := map (fun i => a + Z.of_nat i) (seq 0 (Z.to_nat (b - a + 1))).

(** [v[k]] on a [std::vector], unchecked: outside the vector the behaviour is undefined.  A negative index is a huge
    [unsigned] one in the code. *)
Definition zget {A} (tab : list A) (k : Z) : outcome A :=
  if k <? 0 then UB else of_option (nth_error tab (Z.to_nat k)).

(** [v[k] = x] on a [std::vector], unchecked. *)
Definition zset {A} (tab : list A) (k : Z) (x : A) : outcome (list A) :=
  if ((0 <=? k) && (k <? Z.of_nat (length tab)))%bool then Ok (lset tab (Z.to_nat k) x) else UB.

(** ** A_n^m *)

(** Models GSL's [gsl_sf_fact(unsigned)]: for an argument above [GSL_SF_FACT_NMAX = 170] the library calls its error
    handler, which by default aborts the program; /repo never installs another handler.  A negative [int] becomes an
    [unsigned] above 170. *)
Definition gsl_fact (n : Z) : outcome R :=
  if ((0 <=? n) && (n <=? 170))%bool then Ok (INR (fact (Z.to_nat n))) else Abort.

(** [A_coeff], fmm_general.hpp 18-27. *)
Definition A_coeff (n m : Z) : outcome R :=
  if n <? 0 then Throw
  else
    do a <- gsl_fact (n - m) ;;
    do b <- gsl_fact (n + m) ;;
    Ok ((if Z.odd n then -1 else 1) / sqrt (a * b))%R.

(** [AlmTable], fmm_tables.hpp 193-223. *)
Record atab : Type := mkat { at_max : Z; at_tab : list R }.

(** [getTableIndex], fmm_tables.hpp 217; also of [YlmTable] (109) and [YlmDerivTable] (176), and the index of coefficient
    (n, m) of a 3D expansion, series_expansion.hpp 164-175. *)
Definition sh_index (l m : Z) : Z := l * (l + 1) + m.

(** [refresh], fmm_tables.hpp 203-214. *)
Definition alm_refresh (t : atab) (order : Z) : outcome atab :=
  if order <=? at_max t then Ok t
  else
    do tab <- ofold (fun tab l =>
                ofold (fun tab' m => do a <- A_coeff l m ;; zset tab' (sh_index l m) a) (zrange (- l) l) tab)
              (zrange 0 (2 * order)) (resize 0%R (at_tab t) (Z.to_nat ((2 * order + 1) * (2 * order + 1)))) ;;
    Ok (mkat order tab).

(** [operator()], fmm_tables.hpp 218-220. *)
Definition alm_get (t : atab) (l m : Z) : outcome R := zget (at_tab t) (sh_index l m).

(** ** Sign functions *)

(** The [switch] shared by [sign_fun1], [sign_fun2] and [sign_fun3], fmm_general.hpp 33-42, 49-58, 65-74. *)
Definition sign_switch (exponent : Z) : outcome R :=
  match Z.abs exponent mod 4 with
  | 0 => Ok 1%R
  | 2 => Ok (-1)%R
  | _ => Throw
  end.
(** fmm_general.hpp 29-42. *)
Definition sign_fun1 (k m : Z) : outcome R := sign_switch (Z.abs k - Z.abs m - Z.abs (k - m)).
(** fmm_general.hpp 44-58. *)
Definition sign_fun2 (k m : Z) : outcome R := sign_switch (Z.abs (k - m) - Z.abs k - Z.abs m).
(** fmm_general.hpp 60-74. *)
Definition sign_fun3 (k m : Z) : outcome R := sign_switch (Z.abs m - Z.abs (m - k) - Z.abs k).

(** [SignTable], fmm_tables.hpp 225-263. *)
Record stab : Type := mkst { st_max : Z; st_off : Z; st_tab : list R }.

(** [getTableIndex], fmm_tables.hpp 254-256. *)
Definition st_index (max off l m : Z) : Z := off + l * (2 * max + 1) + m.

(** [refresh], fmm_tables.hpp 239-252. *)
Definition st_refresh (fn : Z -> Z -> outcome R) (t : stab) (order : Z) : outcome stab :=
  if order <=? st_max t then Ok t
  else
    let off := 2 * order * (order + 1) in
    do tab <- ofold (fun tab l =>
                ofold (fun tab' m => do s <- fn l m ;; zset tab' (st_index order off l m) s) (zrange (- order) order) tab)
              (zrange (- order) order) (resize 0%R (st_tab t) (Z.to_nat ((2 * order + 1) * (2 * order + 1)))) ;;
    Ok (mkst order off tab).

(** [operator()], fmm_tables.hpp 258-260. *)
Definition st_get (t : stab) (l m : Z) : outcome R := zget (st_tab t) (st_index (st_max t) (st_off t) l m).

(** ** The static tables of [SeriesExpansion<3>], series_expansion.hpp 103-106. *)
Record tb3 : Type := mktb3 { t_alm : atab; t_s1 : stab; t_s2 : stab; t_s3 : stab }.

(** Initial contents, series_expansion.hpp 128-131: constructors with order 0, whose [refresh] returns at once
    (fmm_tables.hpp 198-201, 233-237); [offset] of an object with static storage is zero. *)
Definition tb3_init : tb3 := mktb3 (mkat 0 []) (mkst 0 0 []) (mkst 0 0 []) (mkst 0 0 []).

(** The effect of the constructor [SeriesExpansion(center, order)] on the static tables, series_expansion.hpp 139-144. *)
Definition tb3_refresh (tb : tb3) (order : Z) : outcome tb3 :=
  if at_max (t_alm tb) <? order then
    do a <- alm_refresh (t_alm tb) order ;;
    do s1 <- st_refresh sign_fun1 (t_s1 tb) order ;;
    do s2 <- st_refresh sign_fun2 (t_s2 tb) order ;;
    do s3 <- st_refresh sign_fun3 (t_s3 tb) order ;;
    Ok (mktb3 a s1 s2 s3)
  else Ok tb.

(** ** Spherical harmonics *)

(** The associated Legendre functions without Condon-Shortley phase: [legPmm m x] is P_m^m (x), [legP m k x] is
    P_{m+k}^m (x), by the upward recurrence in the degree. *)
Fixpoint legPmm (m : nat) (x : R) : R :=
  match m with
  | O => 1
  | S m' => (2 * INR m' + 1) * sqrt (1 - x * x) * legPmm m' x
  end%R.
Fixpoint legP2 (m k : nat) (x : R) : R * R :=
  match k with
  | O => (legPmm m x, 0)
  | S k' => let (a, b) := legP2 m k' x in
            (((2 * INR (m + k') + 1) * x * a - (INR (2 * m + k')) * b) / INR (S k'), a)
  end%R.
Definition legP (l m : nat) (x : R) : R := fst (legP2 m (l - m) x).

(** Models the values delivered by GSL's [gsl_sf_legendre_array_e(GSL_SF_LEGENDRE_SCHMIDT, lmax, x, -1, result)] for
    |x| <= 1 (fmm_tables.hpp 82-84): Schmidt semi-normalised functions with Condon-Shortley phase. *)
Definition schmidt (l m : nat) (x : R) : R :=
  match m with
  | O => legP l 0 x
  | _ => (-1) ^ m * sqrt (2 * INR (fact (l - m)) / INR (fact (l + m))) * legP l m x
  end%R.

(** [std::exp(1i * phi)]. *)
Definition expi (phi : R) : C := (cos phi, sin phi).

(** [YlmTable], fmm_tables.hpp 68-107.  The pair threaded through the inner loop is ([table], [exp_m_phi]). *)
Definition ylm_table (lmax : Z) (theta phi : R) : outcome (list C) :=
  ofold (fun tab l =>
      do tab0 <- zset tab (sh_index l 0) (RtoC (schmidt (Z.to_nat l) 0 (cos theta))) ;;
      omap fst (ofold (fun st m =>
          let y := (RtoC (schmidt (Z.to_nat l) (Z.to_nat m) (cos theta)) * snd st / RtoC (sqrt 2))%C in
          do tab1 <- zset (fst st) (sh_index l m) y ;;
          do tab2 <- zset tab1 (sh_index l (- m)) (Cconj y) ;;
          Ok (tab2, (snd st * expi phi)%C)) (zrange 1 l) (tab0, expi phi)))
    (zrange 0 lmax) (repeat (RtoC 0) (Z.to_nat ((lmax + 1) * (lmax + 1)))).

(** [operator()], fmm_tables.hpp 113-115. *)
Definition ylm_get (tab : list C) (l m : Z) : outcome C := zget tab (sh_index l m).

(** Models the derivatives with respect to theta delivered by [gsl_sf_legendre_deriv_alt_array_e], fmm_tables.hpp
    145-146; GSL specifies them for |cos theta| < 1 only. *)
Definition schmidt_dtheta (l m : nat) (theta : R) : R := Derive (fun t => schmidt l m (cos t)) theta.

(** [YlmDerivTable], fmm_tables.hpp 118-171: the tables of Y_l^m and of its derivative in theta.  For [sin theta = 0] the
    GSL routine is outside its domain and the callers divide by zero: [NonFinite]. *)
Definition ylm_deriv_table (lmax : Z) (theta phi : R) : outcome (list C * list C) :=
  if Req_EM_T (sin theta) 0 then NonFinite
  else
    let exp_table := pow_table (RtoC 1) Cmult (expi phi) (Z.to_nat lmax) in
    ofold (fun tabs l =>
        do ty0 <- zset (fst tabs) (sh_index l 0) (RtoC (schmidt (Z.to_nat l) 0 (cos theta))) ;;
        do td0 <- zset (snd tabs) (sh_index l 0) (RtoC (schmidt_dtheta (Z.to_nat l) 0 theta)) ;;
        ofold (fun tabs' m =>
            do e <- pow_get exp_table (Z.to_nat m) ;;
            let y := (RtoC (schmidt (Z.to_nat l) (Z.to_nat m) (cos theta)) * e / RtoC (sqrt 2))%C in
            let dy := (RtoC (schmidt_dtheta (Z.to_nat l) (Z.to_nat m) theta) * e / RtoC (sqrt 2))%C in
            do ty1 <- zset (fst tabs') (sh_index l m) y ;;
            do ty2 <- zset ty1 (sh_index l (- m)) (Cconj y) ;;
            do td1 <- zset (snd tabs') (sh_index l m) dy ;;
            do td2 <- zset td1 (sh_index l (- m)) (Cconj dy) ;;
            Ok (ty2, td2)) (zrange 1 l) (ty0, td0))
      (zrange 0 lmax)
      (repeat (RtoC 0) (Z.to_nat ((lmax + 1) * (lmax + 1))), repeat (RtoC 0) (Z.to_nat ((lmax + 1) * (lmax + 1)))).
