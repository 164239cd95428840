(** Model of the three-dimensional series expansions: fmm/series_expansion.hpp 101-175 ([SeriesExpansion<3>]),
    fmm/multipole_expansion.hpp 143-304 ([MultipoleExpansion<3>]), fmm/local_expansion.hpp 181-392
    ([LocalExpansion<3>]).

    [std::complex<double>] is Coquelicot's [C]; rounding is not modelled.  A division by zero gives the outcome
    [NonFinite], an access outside a vector gives [UB].  Vectors have three components. *)
From Coq Require Import Reals List Arith ZArith.
From Coquelicot Require Import Complex.
From Verif Require Import Num Outcome Vec Tables Tables3D Fields Spherical.
Import ListNotations.
Local Open Scope Z_scope.
Local Open Scope outcome_scope.

(** A series expansion, series_expansion.hpp 108-110. *)
Record se3 : Type := mks3 { s3_ord : Z; s3_ctr : list R; s3_co : list C }.

(** Coefficient access, series_expansion.hpp 164-175: unchecked. *)
Definition s3_get (e : se3) (n m : Z) : outcome C := zget (s3_co e) (sh_index n m).

(** Default constructor, series_expansion.hpp 112. *)
Definition s3_default : se3 := mks3 0 [0; 0; 0]%R [].

(** Constructor [SeriesExpansion(center, order)], series_expansion.hpp 136-137 (its effect on the static tables is
    [tb3_refresh]); also [LocalExpansion(center, order)], local_expansion.hpp 207-208. *)
Definition s3_zero (center : list R) (order : Z) : se3 :=
  mks3 order center (repeat (RtoC 0) (Z.to_nat ((1 + order) * (1 + order)))).

(** Equality of two points, vector.hpp 51-52 ([std::array] comparison). *)
Definition pt_eq_dec (a b : list R) : {a = b} + {a <> b} := list_eq_dec Req_EM_T a b.

(** [operator+=], series_expansion.hpp 147-162. *)
Definition s3_add (a b : se3) : outcome se3 :=
  if negb (length (s3_co a) =? length (s3_co b))%nat then Throw
  else if pt_eq_dec (s3_ctr a) (s3_ctr b) then Ok (mks3 (s3_ord a) (s3_ctr a) (map2 Cplus (s3_co a) (s3_co b)))
  else Throw.

(** [1/r] on doubles. *)
Definition rinv (r : R) : outcome R := if Req_EM_T r 0 then NonFinite else Ok (/ r)%R.

(** The double loop over n and m of multipole_expansion.hpp 176-184 with [next] updating the power of r, shared with
    local_expansion.hpp 223-231: [self(n,m) += q * r_pow * Y(n,-m)].  The threaded pair is (coefficients, [r_pow]). *)
Definition acc_source (order : Z) (q : R) (tab : list C) (r0 rnext : R) (co : list C) : outcome (list C) :=
  omap fst (ofold (fun st n =>
      do co' <- ofold (fun co m =>
            do y <- ylm_get tab n (- m) ;;
            do old <- zget co (sh_index n m) ;;
            zset co (sh_index n m) (old + RtoC (q * snd st) * y)%C) (zrange (- n) n) (fst st) ;;
      Ok (co', snd st * rnext)%R) (zrange 0 order) (co, r0)).

(** Multipole expansion of a set of sources, multipole_expansion.hpp 163-186. *)
Definition me3_sources (center : list R) (order : Z) (srcs : list (psrc R)) : outcome se3 :=
  do co <- ofold (fun co s =>
        do sph <- to_spherical 3 (vsub (ps_pos s) center) ;;
        do tab <- ylm_table order (vget sph 1) (vget sph 2) ;;
        acc_source order (ps_q s) tab 1 (vget sph 0) co) srcs (s3_co (s3_zero center order)) ;;
  Ok (mks3 order center co).

(** The pairs (j, k) in the order of the loops [for j = 0..order, for k = -j..j], e.g. multipole_expansion.hpp 223-224. *)
Definition jk_pairs (order : Z) : list (Z * Z) :=
  flat_map (fun j => map (fun k => (j, k)) (zrange (- j) j)) (zrange 0 order).

(** [shift], multipole_expansion.hpp 209-245.  [shifted_coefficients[coeff_index++] = ...] is a list built in order. *)
Definition me3_shift (tb : tb3) (e : se3) (shift : list R) : outcome (list C) :=
  do sph <- to_spherical 3 shift ;;
  do tab <- ylm_table (s3_ord e) (vget sph 1) (vget sph 2) ;;
  let rp := pow_table 1%R Rmult (vget sph 0) (Z.to_nat (s3_ord e)) in
  omapM (fun jk =>
      let (j, k) := (jk : Z * Z) in
      do M <- ofold (fun M n =>
            do acc <- ofold (fun acc m =>
                  do s <- st_get (t_s1 tb) k m ;;
                  do a1 <- alm_get (t_alm tb) n m ;;
                  do a2 <- alm_get (t_alm tb) (j - n) (k - m) ;;
                  do c <- s3_get e (j - n) (k - m) ;;
                  do y <- ylm_get tab n (- m) ;;
                  Ok (acc + RtoC (s * a1 * a2) * (c * y))%C)
                (zrange (Z.max (- n) (n + k - j)) (Z.min n (j + k - n))) (RtoC 0) ;;
            do rn <- pow_get rp (Z.to_nat n) ;;
            Ok (M + acc * RtoC rn)%C) (zrange 0 j) (RtoC 0) ;;
      do a <- alm_get (t_alm tb) j k ;;
      Ok (M / RtoC a)%C) (jk_pairs (s3_ord e)).

(** [std::transform] of two coefficient vectors over the range of the first one, multipole_expansion.hpp 196-199: reads
    past the end of a shorter second one. *)
Definition co_plus (a b : list C) : outcome (list C) :=
  if (length b <? length a)%nat then UB else Ok (map2 Cplus a (firstn (length a) b)).

(** Multipole expansion of a set of multipole expansions, multipole_expansion.hpp 188-201. *)
Definition me3_merge (tb : tb3) (center : list R) (mes : list se3) : outcome se3 :=
  match mes with
  | [] => UB
  | m0 :: _ =>
    do co <- ofold (fun co me =>
          do sh <- me3_shift tb me (vsub (s3_ctr me) center) ;;
          co_plus co sh) mes (s3_co (s3_zero center (s3_ord m0))) ;;
    Ok (mks3 (s3_ord m0) center co)
  end.

(** The evaluation loops of multipole_expansion.hpp 256-262 and local_expansion.hpp 344-350: [pot += self(n,m) * r_pow *
    Y(n,m)]. *)
Definition eval_sum (e : se3) (tab : list C) (r0 rnext : R) : outcome C :=
  omap fst (ofold (fun st n =>
      do pot <- ofold (fun pot m =>
            do c <- s3_get e n m ;;
            do y <- ylm_get tab n m ;;
            Ok (pot + c * RtoC (snd st) * y)%C) (zrange (- n) n) (fst st) ;;
      Ok (pot, snd st * rnext)%R) (zrange 0 (s3_ord e)) (RtoC 0, r0)).

(** [evaluatePotential], multipole_expansion.hpp 247-268. *)
Definition me3_pot (e : se3) (x : list R) : outcome R :=
  do sph <- to_spherical 3 (vsub x (s3_ctr e)) ;;
  do tab <- ylm_table (s3_ord e) (vget sph 1) (vget sph 2) ;;
  do ri <- rinv (vget sph 0) ;;
  do pot <- eval_sum e tab ri ri ;;
  Ok (- fst pot)%R.

(** Local expansion of a set of sources, local_expansion.hpp 210-233. *)
Definition le3_sources (center : list R) (order : Z) (srcs : list (psrc R)) : outcome se3 :=
  do co <- ofold (fun co s =>
        do sph <- to_spherical 3 (vsub (ps_pos s) center) ;;
        do tab <- ylm_table order (vget sph 1) (vget sph 2) ;;
        do ri <- rinv (vget sph 0) ;;
        acc_source order (ps_q s) tab ri ri co) srcs (s3_co (s3_zero center order)) ;;
  Ok (mks3 order center co).

(** Conversion of a multipole expansion, local_expansion.hpp 244-279.  [self(j,k) = L_jk] writes the coefficients in
    order. *)
Definition le3_convert (tb : tb3) (center : list R) (e : se3) : outcome se3 :=
  do sph <- to_spherical 3 (vsub (s3_ctr e) center) ;;
  do tab <- ylm_table (2 * s3_ord e) (vget sph 1) (vget sph 2) ;;
  do ri <- rinv (vget sph 0) ;;
  let rp := pow_table 1%R Rmult ri (Z.to_nat (2 * s3_ord e + 1)) in
  do co <- omapM (fun jk =>
      let (j, k) := (jk : Z * Z) in
      do L <- ofold (fun L n =>
            do acc <- ofold (fun acc m =>
                  do s <- st_get (t_s2 tb) k m ;;
                  do a1 <- alm_get (t_alm tb) n m ;;
                  do a2 <- alm_get (t_alm tb) (j + n) (m - k) ;;
                  do c <- s3_get e n m ;;
                  do y <- ylm_get tab (j + n) (m - k) ;;
                  Ok (acc + RtoC (s * a1 / a2) * (c * y))%C) (zrange (- n) n) (RtoC 0) ;;
            do rn <- pow_get rp (Z.to_nat (j + n + 1)) ;;
            Ok (L + RtoC ((if Z.odd n then -1 else 1) * rn) * acc)%C) (zrange 0 (s3_ord e)) (RtoC 0) ;;
      do a <- alm_get (t_alm tb) j k ;;
      Ok (L * RtoC a)%C) (jk_pairs (s3_ord e)) ;;
  Ok (mks3 (s3_ord e) center co).

(** Conversion of a list of multipole expansions, local_expansion.hpp 235-242: [incoming.at(0)] throws on an empty list. *)
Definition le3_convert_all (tb : tb3) (center : list R) (mes : list se3) : outcome se3 :=
  match mes with
  | [] => Throw
  | m0 :: _ => ofold (fun le me => do c <- le3_convert tb center me ;; s3_add le c) mes (s3_zero center (s3_ord m0))
  end.

(** [shift], local_expansion.hpp 295-333. *)
Definition le3_shift (tb : tb3) (e : se3) (shift : list R) : outcome (list C) :=
  do sph <- to_spherical 3 shift ;;
  do tab <- ylm_table (2 * s3_ord e) (vget sph 1) (vget sph 2) ;;
  let rp := pow_table 1%R Rmult (vget sph 0) (Z.to_nat (s3_ord e)) in
  omapM (fun jk =>
      let (j, k) := (jk : Z * Z) in
      do L <- ofold (fun L n =>
            do acc <- ofold (fun acc m =>
                  do s <- st_get (t_s3 tb) k m ;;
                  do a1 <- alm_get (t_alm tb) (n - j) (m - k) ;;
                  do a2 <- alm_get (t_alm tb) n m ;;
                  do c <- s3_get e n m ;;
                  do y <- ylm_get tab (n - j) (m - k) ;;
                  Ok (acc + RtoC (s * a1 / a2) * (c * y))%C)
                (zrange (Z.max (- n) (k + j - n)) (Z.min n (k + n - j))) (RtoC 0) ;;
            do rn <- pow_get rp (Z.to_nat (n - j)) ;;
            Ok (L + RtoC ((if Z.odd (n + j) then -1 else 1) * rn) * acc)%C) (zrange j (s3_ord e)) (RtoC 0) ;;
      do a <- alm_get (t_alm tb) j k ;;
      Ok (RtoC a * L)%C) (jk_pairs (s3_ord e)).

(** Local expansion from a local expansion, local_expansion.hpp 281-286. *)
Definition le3_translate (tb : tb3) (center : list R) (e : se3) : outcome se3 :=
  omap (fun co => mks3 (s3_ord e) center co) (le3_shift tb e (vsub (s3_ctr e) center)).

(** [evaluatePotential], local_expansion.hpp 335-356. *)
Definition le3_pot (e : se3) (x : list R) : outcome R :=
  do sph <- to_spherical 3 (vsub x (s3_ctr e)) ;;
  do tab <- ylm_table (s3_ord e) (vget sph 1) (vget sph 2) ;;
  do pot <- eval_sum e tab 1 (vget sph 0) ;;
  Ok (- fst pot)%R.

(** The force loops of multipole_expansion.hpp 288-300 and local_expansion.hpp 374-387; [wt n] is the factor of the
    radial component.  The threaded pair is ((force_r, force_theta, force_phi), [r_pow]). *)
Definition force_sum (e : se3) (tabs : list C * list C) (theta : R) (n0 : Z) (wt : Z -> R) (r0 rnext : R) :
    outcome (R * R * R) :=
  omap fst (ofold (fun st n =>
      do f <- ofold (fun f m =>
            do c <- s3_get e n m ;;
            do y <- ylm_get (fst tabs) n m ;;
            do dy <- ylm_get (snd tabs) n m ;;
            let yphi := (Ci * RtoC (IZR m) * y)%C in
            Ok (fst (fst f) + snd st * wt n * fst (c * y)%C,
                snd (fst f) + snd st * fst (c * dy)%C,
                snd f + snd st * fst (c * yphi)%C / sin theta)%R) (zrange (- n) n) (fst st) ;;
      Ok (f, snd st * rnext)%R) (zrange n0 (s3_ord e)) ((0, 0, 0), r0)%R).

(** [evaluateForcefield], multipole_expansion.hpp 270-304. *)
Definition me3_force (e : se3) (x : list R) : outcome (list R) :=
  do sph <- to_spherical 3 (vsub x (s3_ctr e)) ;;
  do tabs <- ylm_deriv_table (s3_ord e) (vget sph 1) (vget sph 2) ;;
  do ri <- rinv (vget sph 0) ;;
  do f <- force_sum e tabs (vget sph 1) 0 (fun n => (- IZR (n + 1))%R) (ri * ri)%R ri ;;
  to_cartesian_basis 3 [fst (fst f); snd (fst f); snd f] (vget sph 1) (vget sph 2).

(** [evaluateForcefield], local_expansion.hpp 358-392. *)
Definition le3_force (e : se3) (x : list R) : outcome (list R) :=
  do sph <- to_spherical 3 (vsub x (s3_ctr e)) ;;
  do tabs <- ylm_deriv_table (s3_ord e) (vget sph 1) (vget sph 2) ;;
  do f <- force_sum e tabs (vget sph 1) 1 IZR 1 (vget sph 0) ;;
  to_cartesian_basis 3 [fst (fst f); snd (fst f); snd f] (vget sph 1) (vget sph 2).
