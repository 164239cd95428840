(** Model of the three-dimensional series expansions in rounded arithmetic: the operations of [Expansion3D] in the order in which
    the code performs them, each by an arbitrary function of a record [harith].  fmm/series_expansion.hpp 101-175,
    fmm/multipole_expansion.hpp 143-268, fmm/local_expansion.hpp 181-356.  The force fields (multipole_expansion.hpp 270-304,
    local_expansion.hpp 358-392) are not modelled here.

    Overflow, underflow and signed zeros are not modelled.  The outcome [NonFinite] stands for a division by zero, [UB] for an access
    outside a vector.  The static tables hold exact values ([Tables3D]); the errors of the entries A_n^m (fmm_general.hpp 18-27) are
    applied when an entry is read, which is the same because every entry is written with one value.  The signs are exact. *)
From Coq Require Import Reals List Arith ZArith.
From Coquelicot Require Import Complex.
From Verif Require Import Num Outcome Vec Tables Tables3D Fields Expansion3D Orthtree AdaptiveTree Schedule FmmPasses FmmTree3D RoundedExpansion2D.
Import ListNotations.
Local Open Scope Z_scope.
Local Open Scope outcome_scope.

(** The operations that the code uses. *)
Record harith : Type := mkha {
  h_c : carith;                        (* operations of std::complex<double> *)
  h_rnd : R -> R;                      (* rounding of a product or quotient of doubles *)
  h_dif : R -> R -> R;                 (* a component of the difference of two vectors, vector.hpp 23-44 *)
  h_norm : list R -> R;                (* the radius of toSpherical, vector.hpp 98-119 *)
  h_ylm : list R -> Z -> Z -> C;       (* the entry (l, m) of the YlmTable of the angles of a vector, fmm_tables.hpp 68-116 *)
  h_alm : Z -> Z -> R -> R             (* the entry (l, m) of the AlmTable, for the value A_l^m, fmm_tables.hpp 193-223 *)
}.

Section Rounded.
Variable A : harith.
Notation cadd := (c_add (h_c A)).
Notation cmul := (c_mul (h_c A)).
Notation cscale := (c_scale (h_c A)).
Notation cdivr := (c_divr (h_c A)).
Notation rnd := (h_rnd A).

(** Difference of two vectors, vector.hpp 23-44: the product of the second one with -1. is exact. *)
Definition vdif_r (a b : list R) : list R := map2 (h_dif A) a b.
(** [x / r] on doubles. *)
Definition rquot_r (x r : R) : outcome R := if Req_EM_T r 0 then NonFinite else Ok (rnd (x / r)).
(** Reading the table of A_n^m, fmm_tables.hpp 218-220. *)
Definition alm_get_r (tb : tb3) (n m : Z) : outcome R := do a <- alm_get (t_alm tb) n m ;; Ok (h_alm A n m a).

(** [operator+=], series_expansion.hpp 147-162. *)
Definition s3_add_r (a b : se3) : outcome se3 :=
  if negb (length (s3_co a) =? length (s3_co b))%nat then Throw
  else if pt_eq_dec (s3_ctr a) (s3_ctr b) then Ok (mks3 (s3_ord a) (s3_ctr a) (map2 cadd (s3_co a) (s3_co b)))
  else Throw.

(** The double loop of multipole_expansion.hpp 176-184 and local_expansion.hpp 223-231:
    [self(n,m) += q * r_pow * Y(n,-m)]; [v] is the vector whose angles the table is for, [next] updates the power of r. *)
Definition acc_source_r (order : Z) (q : R) (v : list R) (r0 : R) (next : R -> outcome R) (co : list C) : outcome (list C) :=
  omap fst (ofold (fun st n =>
      do co' <- ofold (fun co m =>
            do old <- zget co (sh_index n m) ;;
            zset co (sh_index n m) (cadd old (cscale (rnd (q * snd st)) (h_ylm A v n (- m))))) (zrange (- n) n) (fst st) ;;
      do r' <- next (snd st) ;;
      Ok (co', r')) (zrange 0 order) (co, r0)).

(** Multipole expansion of a set of sources, multipole_expansion.hpp 163-186. *)
Definition me3_sources_r (center : list R) (order : Z) (srcs : list (psrc R)) : outcome se3 :=
  do co <- ofold (fun co s =>
        let v := vdif_r (ps_pos s) center in
        acc_source_r order (ps_q s) v 1 (fun x => Ok (rnd (x * h_norm A v))) co) srcs (s3_co (s3_zero center order)) ;;
  Ok (mks3 order center co).

(** [shift], multipole_expansion.hpp 209-245. *)
Definition me3_shift_r (tb : tb3) (e : se3) (shift : list R) : outcome (list C) :=
  let rp := pow_table 1%R (fun x y => rnd (x * y)) (h_norm A shift) (Z.to_nat (s3_ord e)) in
  omapM (fun jk =>
      let (j, k) := (jk : Z * Z) in
      do M <- ofold (fun M n =>
            do acc <- ofold (fun acc m =>
                  do s <- st_get (t_s1 tb) k m ;;
                  do a1 <- alm_get_r tb n m ;;
                  do a2 <- alm_get_r tb (j - n) (k - m) ;;
                  do c <- s3_get e (j - n) (k - m) ;;
                  Ok (cadd acc (cscale (rnd (rnd (s * a1) * a2)) (cmul c (h_ylm A shift n (- m))))))
                (zrange (Z.max (- n) (n + k - j)) (Z.min n (j + k - n))) (RtoC 0) ;;
            do rn <- pow_get rp (Z.to_nat n) ;;
            Ok (cadd M (cscale rn acc))) (zrange 0 j) (RtoC 0) ;;
      do a <- alm_get_r tb j k ;;
      if Req_EM_T a 0 then NonFinite else Ok (cdivr M a)) (jk_pairs (s3_ord e)).

(** [std::transform] of two coefficient vectors, multipole_expansion.hpp 196-199, cf. [Expansion3D.co_plus]. *)
Definition co_plus_r (a b : list C) : outcome (list C) :=
  if (length b <? length a)%nat then UB else Ok (map2 cadd a (firstn (length a) b)).

(** Multipole expansion of a set of multipole expansions, multipole_expansion.hpp 188-201. *)
Definition me3_merge_r (tb : tb3) (center : list R) (mes : list se3) : outcome se3 :=
  match mes with
  | [] => UB
  | m0 :: _ =>
    do co <- ofold (fun co me =>
          do sh <- me3_shift_r tb me (vdif_r (s3_ctr me) center) ;;
          co_plus_r co sh) mes (s3_co (s3_zero center (s3_ord m0))) ;;
    Ok (mks3 (s3_ord m0) center co)
  end.

(** The evaluation loops of multipole_expansion.hpp 256-262 and local_expansion.hpp 344-350: [pot += self(n,m) * r_pow *
    Y(n,m)]. *)
Definition eval_sum_r (e : se3) (v : list R) (r0 : R) (next : R -> outcome R) : outcome C :=
  omap fst (ofold (fun st n =>
      do pot <- ofold (fun pot m =>
            do c <- s3_get e n m ;;
            Ok (cadd pot (cmul (cscale (snd st) c) (h_ylm A v n m)))) (zrange (- n) n) (fst st) ;;
      do r' <- next (snd st) ;;
      Ok (pot, r')) (zrange 0 (s3_ord e)) (RtoC 0, r0)).

(** [evaluatePotential], multipole_expansion.hpp 247-268. *)
Definition me3_pot_r (e : se3) (x : list R) : outcome R :=
  let v := vdif_r x (s3_ctr e) in
  do ri <- rquot_r 1 (h_norm A v) ;;
  do pot <- eval_sum_r e v ri (fun y => rquot_r y (h_norm A v)) ;;
  Ok (- fst pot)%R.

(** Local expansion of a set of sources, local_expansion.hpp 210-233. *)
Definition le3_sources_r (center : list R) (order : Z) (srcs : list (psrc R)) : outcome se3 :=
  do co <- ofold (fun co s =>
        let v := vdif_r (ps_pos s) center in
        do ri <- rquot_r 1 (h_norm A v) ;;
        acc_source_r order (ps_q s) v ri (fun y => rquot_r y (h_norm A v)) co) srcs (s3_co (s3_zero center order)) ;;
  Ok (mks3 order center co).

(** Conversion of a multipole expansion, local_expansion.hpp 244-279. *)
Definition le3_convert_r (tb : tb3) (center : list R) (e : se3) : outcome se3 :=
  let v := vdif_r (s3_ctr e) center in
  do ri <- rquot_r 1 (h_norm A v) ;;
  let rp := pow_table 1%R (fun x y => rnd (x * y)) ri (Z.to_nat (2 * s3_ord e + 1)) in
  do co <- omapM (fun jk =>
      let (j, k) := (jk : Z * Z) in
      do L <- ofold (fun L n =>
            do acc <- ofold (fun acc m =>
                  do s <- st_get (t_s2 tb) k m ;;
                  do a1 <- alm_get_r tb n m ;;
                  do a2 <- alm_get_r tb (j + n) (m - k) ;;
                  do c <- s3_get e n m ;;
                  do q <- rquot_r (rnd (s * a1)) a2 ;;
                  Ok (cadd acc (cscale q (cmul c (h_ylm A v (j + n) (m - k)))))) (zrange (- n) n) (RtoC 0) ;;
            do rn <- pow_get rp (Z.to_nat (j + n + 1)) ;;
            Ok (cadd L (cscale (rnd ((if Z.odd n then -1 else 1) * rn)) acc))) (zrange 0 (s3_ord e)) (RtoC 0) ;;
      do a <- alm_get_r tb j k ;;
      Ok (cscale a L)) (jk_pairs (s3_ord e)) ;;
  Ok (mks3 (s3_ord e) center co).

(** Conversion of a list of multipole expansions, local_expansion.hpp 235-242: [incoming.at(0)] throws on an empty list. *)
Definition le3_convert_all_r (tb : tb3) (center : list R) (mes : list se3) : outcome se3 :=
  match mes with
  | [] => Throw
  | m0 :: _ => ofold (fun le me => do c <- le3_convert_r tb center me ;; s3_add_r le c) mes (s3_zero center (s3_ord m0))
  end.

(** [shift], local_expansion.hpp 295-333. *)
Definition le3_shift_r (tb : tb3) (e : se3) (shift : list R) : outcome (list C) :=
  let rp := pow_table 1%R (fun x y => rnd (x * y)) (h_norm A shift) (Z.to_nat (s3_ord e)) in
  omapM (fun jk =>
      let (j, k) := (jk : Z * Z) in
      do L <- ofold (fun L n =>
            do acc <- ofold (fun acc m =>
                  do s <- st_get (t_s3 tb) k m ;;
                  do a1 <- alm_get_r tb (n - j) (m - k) ;;
                  do a2 <- alm_get_r tb n m ;;
                  do c <- s3_get e n m ;;
                  do q <- rquot_r (rnd (s * a1)) a2 ;;
                  Ok (cadd acc (cscale q (cmul c (h_ylm A shift (n - j) (m - k))))))
                (zrange (Z.max (- n) (k + j - n)) (Z.min n (k + n - j))) (RtoC 0) ;;
            do rn <- pow_get rp (Z.to_nat (n - j)) ;;
            Ok (cadd L (cscale (rnd ((if Z.odd (n + j) then -1 else 1) * rn)) acc))) (zrange j (s3_ord e)) (RtoC 0) ;;
      do a <- alm_get_r tb j k ;;
      Ok (cscale a L)) (jk_pairs (s3_ord e)).

(** Local expansion from a local expansion, local_expansion.hpp 281-286. *)
Definition le3_translate_r (tb : tb3) (center : list R) (e : se3) : outcome se3 :=
  omap (fun co => mks3 (s3_ord e) center co) (le3_shift_r tb e (vdif_r (s3_ctr e) center)).

(** [evaluatePotential], local_expansion.hpp 335-356. *)
Definition le3_pot_r (e : se3) (x : list R) : outcome R :=
  let v := vdif_r x (s3_ctr e) in
  do pot <- eval_sum_r e v 1 (fun y => Ok (rnd (y * h_norm A v))) ;;
  Ok (- fst pot)%R.

(** The operations on expansions of order [p], cf. [FmmTree3D.ops3].  The evaluations of forces are arbitrary functions. *)
Definition ops3_r (mforce lforce : se3 -> list R -> outcome (list R)) (p : nat) : ops se3 se3 tb3 := {|
  o_default := s3_default;                                                        (* multipole_expansion.hpp 151 *)
  o_p2m := fun tb c srcs =>                                                       (* multipole_expansion.hpp 163-186 *)
    do tb' <- tb3_refresh tb (Z.of_nat p) ;; do e <- me3_sources_r c (Z.of_nat p) srcs ;; Ok (e, tb');
  o_m2m := fun tb c es =>                                                         (* multipole_expansion.hpp 188-201 *)
    do tb' <- tb3_grow tb (firstn 1 es) ;; do e <- me3_merge_r tb' c es ;; Ok (e, tb');
  o_zero := fun tb c => (s3_zero c (Z.of_nat p), match tb3_refresh tb (Z.of_nat p) with Ok tb' => tb' | _ => tb end);
                                                                                  (* local_expansion.hpp 207-208 *)
  o_m2l := fun tb c es =>                                                         (* local_expansion.hpp 235-242 *)
    do tb' <- tb3_grow tb es ;; do e <- le3_convert_all_r tb' c es ;; Ok (e, tb');
  o_l2l := fun tb c e =>                                                          (* local_expansion.hpp 281-286 *)
    do tb' <- tb3_refresh tb (s3_ord e) ;; do e' <- le3_translate_r tb' c e ;; Ok (e', tb');
  o_p2l := fun tb c srcs =>                                                       (* local_expansion.hpp 210-233 *)
    do tb' <- tb3_refresh tb (Z.of_nat p) ;; do e <- le3_sources_r c (Z.of_nat p) srcs ;; Ok (e, tb');
  o_size := fun e => length (s3_co e);
  o_add := s3_add_r;                                                              (* series_expansion.hpp 147-162 *)
  o_mpot := me3_pot_r;                                                            (* multipole_expansion.hpp 247-268 *)
  o_lpot := le3_pot_r;                                                            (* local_expansion.hpp 335-356 *)
  o_mforce := mforce;
  o_lforce := lforce
|}.
End Rounded.
