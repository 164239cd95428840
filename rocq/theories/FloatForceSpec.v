(** Notions for the accuracy of the forces of two-dimensional multipole expansions in doubles. *)
From Coq Require Import Reals List.
From Coquelicot Require Import Complex.
From Verif Require Import Num Vec CAux FloatCases FloatFit FloatCoefficientSpec.
From Coq Require Import Floats.
Import ListNotations.
Local Open Scope R_scope.

(** The derivative of the expansion of order [p]: [a_0 / z - sum k a_k / z^(k+1)]. *)
Fixpoint derivative_series (c : list float) (srcs : list (psrc float)) (z : C) (p : nat) : C :=
  match p with O => (coefficient c 0 srcs / z)%C | S p' => (derivative_series c srcs z p' - RtoC (INR p) * coefficient c p srcs / Cpow z (S p))%C end.
(** The force of the expansion: minus the gradient of its real part, as a point of the plane. *)
Definition expansion_force (c : list float) (p : nat) (srcs : list (psrc float)) (x : list float) : C :=
  (- Cconj (derivative_series c srcs (point_of x - point_of c) p))%C.
(** The sum over the sources of [- q (x - y) / |x - y|^2]. *)
Definition direct_force_value (srcs : list (psrc float)) (x : list float) : C :=
  fold_right (fun s r => (RtoC (- real_of (ps_q s) / Cmod (point_of x - point_of (ps_pos s))%C ^ 2) * (point_of x - point_of (ps_pos s)) + r)%C) (RtoC 0) srcs.
