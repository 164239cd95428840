(** Specification vocabulary for trees: what "below", "leaf sources" and "interactions of a leaf" mean.
    An address is the path from a box up to the root, so the parent of [i :: q] is [q]. *)
From Coq Require Import List Bool Arith Reals.
From Verif Require Import AdaptiveTree.
Import ListNotations.

(** [p], its parent, ..., the root. *)
Fixpoint ancestors_or_self (p : addr) : list addr := p :: match p with [] => [] | _ :: q => ancestors_or_self q end.

(** [q] is [p] or an ancestor of [p]. *)
Definition is_above (q p : addr) : bool := existsb (addr_eqb q) (ancestors_or_self p).

Section Spec.
Context {T Src : Type}.
Notation tree := (@atree T Src).

Definition leaf_nodes (t : tree) : list (@anode T Src) := concat (at_leaves t).
Definition leaf_list (t : tree) : list addr := map an_addr (leaf_nodes t).
(** The leaves of the subtree rooted at box [q]. *)
Definition leaves_below (t : tree) (q : addr) : list addr := filter (is_above q) (leaf_list t).

(** Everything that reaches a point in leaf [L]: directly the near list; through their multipole expansions the
    boxes of the W list; through the local expansion of [L] or an ancestor the boxes of their interaction lists and
    the leaves of their X lists.  Boxes are expanded into the leaves below them. *)
Definition interactions (t : tree) (ls : nlists) (L : addr) : list addr :=
  nl_near ls L
  ++ flat_map (leaves_below t) (nl_W ls L)
  ++ flat_map (fun a => flat_map (leaves_below t) (nl_inter ls a) ++ nl_X ls a) (ancestors_or_self L).

(** The sources stored in the leaf with address [p]. *)
Definition leaf_sources (t : tree) (p : addr) : list Src :=
  flat_map (fun n => if addr_eqb (an_addr n) p then an_srcs n else []) (leaf_nodes t).
(** The sources stored in the leaves below box [q]. *)
Definition sources_below (t : tree) (q : addr) : list Src := flat_map (leaf_sources t) (leaves_below t q).

(** The boxes whose expansions are evaluated at a point of leaf [L]: [L] (local expansion) and the boxes of its W list
    (multipole expansions). *)
Definition expanded_for (t : tree) (ls : nlists) (L n : @anode T Src) : Prop :=
  n = L \/ In n (heap t) /\ In (an_addr n) (nl_W ls (an_addr L)).
End Spec.
