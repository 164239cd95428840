(** Specification of the direct fields, independent of the code: Euclidean distance, the two kernels, and superposition. *)
From Coq Require Import Reals List Arith.
From Verif Require Import Vec CAux.
Import ListNotations.
Local Open Scope R_scope.

(** Euclidean distance of two points of the same dimension. *)
Definition dist (a b : list R) : R :=
  sqrt (rsum (fun k => (nth k a 0 - nth k b 0) ^ 2) (seq 0 (length a))).

(** Gravitational potential of a source of strength [q] at distance [r]: [q ln r] in the plane, [- q / r] in space. *)
Definition kernel (d : nat) (q r : R) : R := if (d =? 2)%nat then q * ln r else - q / r.

(** The Coulomb field has the opposite sign. *)
Definition field_sign (grav : bool) : R := if grav then 1 else -1.

(** Superposition. *)
Definition direct_potential (d : nat) (grav : bool) (srcs : list (psrc R)) (x : list R) : R :=
  rsum (fun s => field_sign grav * kernel d (ps_q s) (dist (ps_pos s) x)) srcs.

(** Total absolute source strength. *)
Definition abs_charge (srcs : list (psrc R)) : R := rsum (fun s => Rabs (ps_q s)) srcs.

(** Sources at the point [x] itself. *)
Definition is_at (x : list R) (s : psrc R) : bool := if list_eq_dec Req_EM_T (ps_pos s) x then true else false.

(** All sources have dimension [d]. *)
Definition same_dim (d : nat) (srcs : list (psrc R)) : Prop := forall s, In s srcs -> length (ps_pos s) = d.

(** Force of one source on a unit charge at [x]: towards the source for gravity, with the denominator used by the code. *)
Definition force_den (d : nat) (eps : R) (r : R) : R := if (d =? 2)%nat then r ^ 2 + eps else r ^ 3 + eps.
Definition force_on (d : nat) (grav : bool) (eps : R) (s : psrc R) (x : list R) (k : nat) : R :=
  field_sign grav * (ps_q s * (nth k (ps_pos s) 0 - nth k x 0) / force_den d eps (dist (ps_pos s) x)).

(** Direct force field, by superposition. *)
Definition direct_force (d : nat) (grav : bool) (eps : R) (srcs : list (psrc R)) (x : list R) : list R :=
  map (fun k => rsum (fun s => force_on d grav eps s x k) srcs) (seq 0 d).
