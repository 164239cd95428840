(** Vocabulary for the rounding-error theorems. *)
From Coq Require Import Reals List.
From Verif Require Import Vec Fields FieldSpec.
Import ListNotations.
Local Open Scope R_scope.

(** Standard model of floating-point arithmetic: every operation has relative error at most [u]. *)
Definition accurate_rounding (u : R) (rnd : R -> R) : Prop := forall x, Rabs (rnd x - x) <= u * Rabs x.
(** The library's norm and logarithm have relative error at most [e]. *)
Definition accurate_norm (e : R) (hyp : list R -> R) : Prop :=
  forall v, Rabs (hyp v - sqrt (CAux.rsum (fun c => c ^ 2) v)) <= e * sqrt (CAux.rsum (fun c => c ^ 2) v).
Definition accurate_log (e : R) (lg : R -> R) : Prop := forall r, 0 < r -> Rabs (lg r - ln r) <= e * Rabs (ln r).
(** The opposites of the coordinates of [x] are machine numbers. *)
Definition representable (rnd : R -> R) (x : list R) : Prop := forall y, In y x -> rnd (- y) = - y.

(** The sources that do not lie at [x]. *)
Definition others (x : list R) (srcs : list (psrc R)) : list (psrc R) := filter (fun s => negb (is_at x s)) srcs.
(** Coinciding sources are only evaluated in the safe variant. *)
Definition evaluable (safe : bool) (x : list R) (srcs : list (psrc R)) : Prop := safe = true \/ forall s, In s srcs -> ps_pos s <> x.
