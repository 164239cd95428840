(** Model of the table of spherical harmonics in rounded arithmetic: fmm/vector.hpp 107-113 (the angles of a vector) and
    fmm/fmm_tables.hpp 68-116 ([YlmTable]), each operation by an arbitrary function of a record [yarith].

    Overflow, underflow and signed zeros are not modelled.  [std::exp(1i * phi)] is one operation: the product with the
    imaginary unit is exact. *)
From Coq Require Import Reals List ZArith.
From Coquelicot Require Import Complex.
From Verif Require Import Num Outcome Vec Tables3D RoundedExpansion2D RoundedExpansion3D.
Import ListNotations.
Local Open Scope Z_scope.
Local Open Scope outcome_scope.

(** The operations that the code uses. *)
Record yarith : Type := mkya {
  y_c : carith;                        (* operations of std::complex<double> *)
  y_hyp : R -> R -> R;                 (* std::hypot *)
  y_atan2 : R -> R -> R;               (* std::atan2 *)
  y_cos : R -> R;                      (* std::cos *)
  y_leg : nat -> nat -> R -> R;        (* the entry (l, m) written by gsl_sf_legendre_array_e(GSL_SF_LEGENDRE_SCHMIDT, lmax, x, -1, ..);
                                          recurrences upwards in l and m: it does not depend on lmax *)
  y_exp : R -> C;                      (* std::exp(1i * phi) *)
  y_sqrt2 : R                          (* std::sqrt(2) *)
}.

Section Table.
Variable Y : yarith.

(** The angles of a vector of space, vector.hpp 107-113. *)
Definition angles_r (v : list R) : R * R :=
  (y_atan2 Y (y_hyp Y (vget v 0) (vget v 1)) (vget v 2), y_atan2 Y (vget v 1) (vget v 0)).

(** [YlmTable], fmm_tables.hpp 76-107.  The pair threaded through the inner loop is ([table], [exp_m_phi]). *)
Definition ylm_table_r (lmax : Z) (theta phi : R) : outcome (list C) :=
  ofold (fun tab l =>
      do tab0 <- zset tab (sh_index l 0) (RtoC (y_leg Y (Z.to_nat l) 0 (y_cos Y theta))) ;;
      omap fst (ofold (fun st m =>
          let y := c_divr (y_c Y) (c_scale (y_c Y) (y_leg Y (Z.to_nat l) (Z.to_nat m) (y_cos Y theta)) (snd st)) (y_sqrt2 Y) in
          do tab1 <- zset (fst st) (sh_index l m) y ;;
          do tab2 <- zset tab1 (sh_index l (- m)) (Cconj y) ;;
          Ok (tab2, c_mul (y_c Y) (snd st) (y_exp Y phi))) (zrange 1 l) (tab0, y_exp Y phi)))
    (zrange 0 lmax) (repeat (RtoC 0) (Z.to_nat ((lmax + 1) * (lmax + 1)))).

(** The entry (l, m) of the table constructed for the angles of the vector [v], with the smallest [lmax] that has it. *)
Definition harmonic_r (v : list R) (l m : Z) : C :=
  match ylm_table_r l (fst (angles_r v)) (snd (angles_r v)) with
  | Ok tab => match ylm_get tab l m with Ok y => y | _ => RtoC 0 end
  | _ => RtoC 0
  end.

(** The operations of the three-dimensional expansions, with this table. *)
Definition table_harith (rnd : R -> R) (dif : R -> R -> R) (norm : list R -> R) (alm : Z -> Z -> R -> R) : harith :=
  mkha (y_c Y) rnd dif norm harmonic_r alm.
End Table.
