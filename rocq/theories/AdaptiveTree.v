(** Model of fmm/adaptive_fmm_tree.hpp (structure part) and fmm/adaptive_point_orthtree.hpp:
    tree construction, neighbour lists, containing leaf.

    A pointer to a tree node is modelled by its address, the list of child indices from the node up to the root
    (most recent first), so that [children[i]] of [p] is [i :: p] and [parent] is [tl]. *)
From Coq Require Import List Bool ZArith Arith.
From Verif Require Import Num Outcome Vec Orthtree.
Import ListNotations.

Definition addr := list nat.

Fixpoint addr_eqb (a b : addr) : bool :=
  match a, b with
  | [], [] => true
  | x :: a', y :: b' => Nat.eqb x y && addr_eqb a' b'
  | _, _ => false
  end.

Section Adaptive.
Context {T : Type} {N : Num T} {D : Dist T} {Src : Type}.
Variable d : nat.
Variable pos : Src -> list T.     (* [source.position] (fmm tree) or the point itself (point tree) *)

(** A node or leaf (adaptive_fmm_tree.hpp:62-106, abstract_orthtree.hpp:51-70).  [an_leaf] is [isLeaf()];
    [an_srcs] is [FmmLeaf::sources] and is empty for inner nodes. *)
Record anode := ANode {
  an_addr : addr;
  an_center : list T;
  an_len : T;
  an_depth : nat;
  an_leaf : bool;
  an_srcs : list Src
}.

(** The tree object: [nodes] and [leaves], stored level by level, and [height]
    (adaptive_fmm_tree.hpp:31-32, abstract_orthtree.hpp:28). *)
Record atree := ATree {
  at_nodes : list (list anode);
  at_leaves : list (list anode);
  at_height : nat
}.

Definition update_nth {A} (n : nat) (f : A -> A) (l : list A) : list A :=
  map (fun ix => if Nat.eqb (fst ix) n then f (snd ix) else snd ix) (combine (seq 0 (length l)) l).

(** adaptive_fmm_tree.hpp:421-434, adaptive_point_orthtree.hpp:87-100 [refineOrthant]. *)
Definition refine_orthant (center : list T) (srcs : list Src) : list (list Src) :=
  fold_left (fun acc s => update_nth (get_orthant d center (pos s)) (fun l => l ++ [s]) acc)
            srcs (repeat [] (n_children d)).

(** Body of the loop over the children of one node, adaptive_fmm_tree.hpp:470-493
    (adaptive_point_orthtree.hpp:137-160): child i is a node if it holds more than [cap] sources, else a leaf.
    The sources of a new inner node go to [temp_node_sources]; here they are returned beside the node. *)
Definition make_child (cap : nat) (nd : anode) (i : nat) (css : list Src) : anode * list Src :=
  let child_len := nhalf (an_len nd) in
  let c := child_center d (an_center nd) child_len i in
  if Nat.ltb cap (length css)
  then (ANode (i :: an_addr nd) c child_len (an_depth nd + 1) false [], css)
  else (ANode (i :: an_addr nd) c child_len (an_depth nd + 1) true css, []).

(** adaptive_fmm_tree.hpp:458-494: one inner node of the current level. *)
Definition refine_node (cap : nat) (nd_srcs : anode * list Src) : list (anode * list Src) :=
  let '(nd, srcs) := nd_srcs in
  map (fun ic => make_child cap nd (fst ic) (snd ic))
      (combine (seq 0 (n_children d)) (refine_orthant (an_center nd) srcs)).

Definition refine_level (cap : nat) (cur : list (anode * list Src)) : list (anode * list Src) :=
  flat_map (refine_node cap) cur.

(** adaptive_fmm_tree.hpp:451-504 the level loop.  [cur] pairs [nodes[depth-1]] with [node_sources];
    each iteration handles level [depth+1].  [None] if the loop has not ended within the fuel. *)
Fixpoint build_loop (cap : nat) (fuel : nat) (depth : nat) (cur : list (anode * list Src))
    (nodes leaves : list (list anode)) : option atree :=
  match fuel with
  | O => None
  | S fuel' =>
      let children := refine_level cap cur in
      let next_nodes := filter (fun ns => negb (an_leaf (fst ns))) children in
      let next_leaves := map fst (filter (fun ns => an_leaf (fst ns)) children) in
      let leaves' := leaves ++ [next_leaves] in
      match next_nodes with
      | [] => Some (ATree nodes leaves' (S depth))
      | _ => build_loop cap fuel' (S depth) next_nodes (nodes ++ [map fst next_nodes]) leaves'
      end
  end.

(** adaptive_fmm_tree.hpp:114-142: the tree-building part of the constructor, given the root box. *)
Definition build_in_box (cap : nat) (fuel : nat) (center : list T) (len : T) (srcs : list Src) : option atree :=
  if Nat.leb (length srcs) cap
  then Some (ATree [] [[ANode [] center len 0 true srcs]] 0)
  else
    let root := ANode [] center len 0 false [] in
    build_loop cap fuel 0 [(root, srcs)] [[root]] [[]].

(** adaptive_point_orthtree.hpp:64-85: the point tree has no single-leaf case, and its [nodes] get one extra,
    empty level at the end (lines 120-121, 166-169), which the model omits. *)
Definition build_point_tree (cap : nat) (fuel : nat) (center : list T) (len : T) (pts : list Src) : option atree :=
  let root := ANode [] center len 0 false [] in
  build_loop cap fuel 0 [(root, pts)] [[root]] [[]].

(** The constructor from sources.  [UB]: no sources, so the box is not finite. *)
Definition build_adaptive (cap : nat) (fuel : nat) (srcs : list Src) : outcome atree :=
  match root_box d (map pos srcs) with
  | None => UB
  | Some (c, l) => match build_in_box cap fuel c l srcs with Some t => Ok t | None => OutOfFuel end
  end.

(** *** Pointers *)
Definition heap (t : atree) : list anode := concat (at_nodes t) ++ concat (at_leaves t).
Definition lookup (t : atree) (p : addr) : option anode := find (fun n => addr_eqb (an_addr n) p) (heap t).
(** [children] of a node: [nullptr] everywhere for a leaf (abstract_orthtree.hpp:64), all set for a node. *)
Definition children (t : atree) (p : addr) : list addr :=
  match lookup t p with
  | Some n => if an_leaf n then [] else map (fun i => i :: p) (seq 0 (n_children d))
  | None => []
  end.

(** *** Neighbour lists *)
Record nlists := NLists {
  nl_near : addr -> list addr;     (* near_neighbours *)
  nl_inter : addr -> list addr;    (* interaction_list, list V *)
  nl_X : addr -> list addr;        (* X_list *)
  nl_W : addr -> list addr         (* W_list *)
}.
Definition nl_empty : nlists := NLists (fun _ => []) (fun _ => []) (fun _ => []) (fun _ => []).

Definition push (f : addr -> list addr) (p x : addr) : addr -> list addr :=
  fun q => if addr_eqb q p then f q ++ [x] else f q.
Definition push_near ls p x := NLists (push (nl_near ls) p x) (nl_inter ls) (nl_X ls) (nl_W ls).
Definition push_inter ls p x := NLists (nl_near ls) (push (nl_inter ls) p x) (nl_X ls) (nl_W ls).
Definition push_X ls p x := NLists (nl_near ls) (nl_inter ls) (push (nl_X ls) p x) (nl_W ls).
Definition push_W ls p x := NLists (nl_near ls) (nl_inter ls) (nl_X ls) (push (nl_W ls) p x).

Definition nodes_adjacent (a b : anode) : bool := adjacent d (an_center a) (an_len a) (an_center b) (an_len b).

(** adaptive_fmm_tree.hpp:558-559: [(center - child->center).norm() < 1.99 * node->box_length]. *)
Definition too_close (a b : anode) : bool :=
  norm_ltb (vsub (an_center a) (an_center b)) (nmul (nlit 199 100) (an_len a)).

(** adaptive_fmm_tree.hpp:541-564: one child of an inner parent neighbour. *)
Definition nbhd_child (t : atree) (nd : anode) (ls : nlists) (cp : addr) : outcome nlists :=
  match lookup t cp with
  | None => UB
  | Some child =>
      if nodes_adjacent nd child then
        if negb (an_leaf nd) || an_leaf child then Ok (push_near ls (an_addr nd) cp) else Ok ls
      else
        let ls' := push_inter ls (an_addr nd) cp in
        if too_close nd child then Throw else Ok ls'
  end.

(** adaptive_fmm_tree.hpp:521-566: one parent neighbour. *)
Definition nbhd_neighbour (t : atree) (nd : anode) (ls : nlists) (pn : addr) : outcome nlists :=
  match lookup t pn with
  | None => UB
  | Some pnd =>
      if an_leaf pnd then
        if nodes_adjacent nd pnd then
          let ls1 := push_near ls (an_addr nd) pn in
          if an_leaf nd then Ok (push_near ls1 pn (an_addr nd)) else Ok ls1
        else Ok (push_W (push_X ls (an_addr nd) pn) pn (an_addr nd))
      else ofold (nbhd_child t nd) (children t pn) ls
  end.

(** adaptive_fmm_tree.hpp:509-567 [computeNodeNeighbourhood].  The C++ loop iterates over the parent's vector,
    which the body never modifies ([nbhd_parent_unchanged] in AnyTheorems.v), so the model iterates over its value on entry. *)
Definition nbhd (t : atree) (p : addr) (ls : nlists) : outcome nlists :=
  match lookup t p with
  | None => UB
  | Some nd =>
      match p with
      | [] => Ok (push_near ls p p)
      | _ :: parent => ofold (nbhd_neighbour t nd) (nl_near ls parent) ls
      end
  end.

(** adaptive_fmm_tree.hpp:125, 144-147: the lists of all nodes. *)
Definition all_lists (t : atree) : outcome nlists :=
  bfs (fun _ p => children t p) (nbhd t) (length (heap t)) [[]] nl_empty.

(** adaptive_fmm_tree.hpp:585-598 [getContainingLeaf]; fuel bounds the descent, [Ok None] is [nullptr]. *)
Fixpoint descend (t : atree) (fuel : nat) (p : addr) (x : list T) : outcome anode :=
  match lookup t p with
  | None => UB
  | Some n =>
      if an_leaf n then Ok n
      else match fuel with
           | O => OutOfFuel
           | S f => descend t f (get_orthant d (an_center n) x :: p) x
           end
  end.
Definition containing_leaf (t : atree) (x : list T) : outcome (option anode) :=
  omap (fun n => if contains d (an_center n) (an_len n) x then Some n else None)
       (descend t (at_height t) [] x).

End Adaptive.
Arguments ANode {T Src}.
Arguments ATree {T Src}.
