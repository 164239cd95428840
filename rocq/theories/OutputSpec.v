(** Vocabulary for the properties of the log files. *)
From Coq Require Import List Arith.
From Verif Require Import AdaptiveTree Output.
Import ListNotations.

Section Spec.
Context {T Src : Type}.
Notation row := (list (field T)).
Notation node := (@anode T Src).

(** The rows [f k x] of the elements of a list, numbered from [k]. *)
Fixpoint numbered {A} (f : nat -> A -> list row) (k : nat) (xs : list A) : list row :=
  match xs with [] => [] | x :: r => f k x ++ numbered f (S k) r end.

(** The center of a box, and the centers of the boxes with the given addresses. *)
Definition center_of (n : node) : row := map FNum (an_center n).
Definition centers_at (ns : list node) (ps : list addr) : row :=
  flat_map (fun q => flat_map center_of (filter (fun n => addr_eqb (an_addr n) q) ns)) ps.
(** The sources of a leaf. *)
Definition sources_row (cols : Src -> list T) (k : nat) (n : node) : row := FNat k :: flat_map (fun s => map FNum (cols s)) (an_srcs n).
(** All addresses of a list name boxes of the tree. *)
Definition all_boxes_of (ns : list node) (ps : list addr) : Prop := forall q, In q ps -> exists m, In m ns /\ an_addr m = q.
End Spec.
