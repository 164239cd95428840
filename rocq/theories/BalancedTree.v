(** Model of fmm/balanced_orthtree.hpp and of the structure part of fmm/balanced_fmm_tree.hpp: leaf box indices, flat and
    Morton indices, construction of the node and leaf arrays, distribution of the sources, neighbour lists.

    As in [AdaptiveTree], a pointer to a node is its address (the child indices on the way up to the root).  The arrays
    [nodes] and [leaves] are lists; an access outside the allocated arrays is [UB]. *)
From Coq Require Import List Bool ZArith Arith.
From Verif Require Import Num Outcome Vec Orthtree AdaptiveTree.
Import ListNotations.
Local Open Scope outcome_scope.

(** The type [uint32_t]: conversion of a value that does not fit is undefined behaviour, arithmetic wraps. *)
Definition u32_max : Z := 4294967296.
Definition to_u32 (z : Z) : outcome Z := if ((0 <=? z) && (z <? u32_max))%Z then Ok z else UB.
Definition wrap32 (z : Z) : Z := (z mod u32_max)%Z.

Section Balanced.
Context {T : Type} {N : Num T} {D : Dist T} {Src : Type}.
Variable d : nat.
Variable pos : Src -> list T.
Notation node := (@anode T Src).

(** balanced_orthtree.hpp 37, 56 [uint32_t n_boxes_per_dim = pow(2, height)]. *)
Definition boxes_per_dim (h : nat) : outcome Z := to_u32 (2 ^ Z.of_nat h).

(** balanced_orthtree.hpp 25-50 [getLeafBoxIndices]; [c] and [l] are the center and the side length of the root.  With a
    zero side length [1 / box_length] is infinite and the indices are converted from an infinity or a NaN. *)
Definition leaf_box_indices (h : nat) (c : list T) (l : T) (p : list T) : outcome (list Z) :=
  let lower := box_lower d c l in
  let ratios := vscale (vsub p lower) (ndiv n1 l) in
  do n <- boxes_per_dim h ;;
  if neqb l n0 then UB
  else omapM (fun i =>
    do z <- of_option (nfloor (nmul (vget ratios i) (nlit n 1))) ;;
    do k <- to_u32 z ;;
    if (n <=? k)%Z then Throw else Ok k) (seq 0 d).

(** balanced_orthtree.hpp 52-67 [getFlatIndex], all arithmetic in [uint32_t]. *)
Definition flat_index (h : nat) (idx : list Z) : outcome Z :=
  do n <- boxes_per_dim h ;;
  Ok (fst (fold_left (fun acc i =>
        (wrap32 (fst acc + wrap32 (snd acc * nth (d - i - 1) idx 0)), wrap32 (snd acc * n)))
      (seq 0 d) (0, 1)))%Z.

(** balanced_orthtree.hpp 72-107 [getMortonIndex].  A [bitset<64>] is an integer in [0, 2^64).  First the indices are packed
    into [helper_bitset], [h] bits each (lines 94-97), then the bits are interleaved (lines 99-105). *)
Definition morton_helper (h : nat) (idx : list Z) : Z :=
  fold_left (fun acc i => Z.lor (Z.shiftl acc (Z.of_nat h) mod 2 ^ 64) (nth i idx 0%Z)) (seq 0 d) 0%Z.
Definition put_bit (acc : Z) (k : nat) (b : bool) : Z :=
  if b then Z.setbit acc (Z.of_nat k) else Z.clearbit acc (Z.of_nat k).
Definition morton_bits (h : nat) (helper : Z) : nat * Z :=
  fold_left (fun acc i =>
    fold_left (fun acc j => (S (fst acc), put_bit (snd acc) (fst acc) (Z.testbit helper (Z.of_nat (j * h + i)))))
      (seq 0 d) acc)
    (seq 0 h) (0, 0%Z).
Definition morton_index (h : nat) (idx : list Z) : outcome Z :=
  if Nat.leb (64 / d) h then Throw else Ok (snd (morton_bits h (morton_helper h idx))).

(** The arrays under construction: [bs_nodes] is [nodes[0 .. node_offset)], [bs_leaves] is [leaves[0 .. leaf_offset)],
    [bs_children] gives the non-null entries of [children] of a node. *)
Record bstate := BState {
  bs_nodes : list node;
  bs_leaves : list node;
  bs_children : addr -> list addr
}.
Definition bs_lookup (st : bstate) (p : addr) : option node :=
  find (fun n => addr_eqb (an_addr n) p) (bs_nodes st ++ bs_leaves st).

(** balanced_fmm_tree.hpp 100-101: the sizes of the arrays (the division is in [double] and then truncated). *)
Definition n_nodes (h : nat) : nat := n_children d ^ h / (n_children d - 1).
Definition n_leaves (h : nat) : nat := n_children d ^ h.

(** [*child = FmmNode(...)] with [child = nodes + node_offset++] and [node->children[j] = child] (lines 415-419), and the
    same for leaves (lines 429-433). *)
Definition store_node (h : nat) (p : addr) (n : node) (st : bstate) : outcome bstate :=
  if Nat.ltb (length (bs_nodes st)) (n_nodes h)
  then Ok (BState (bs_nodes st ++ [n]) (bs_leaves st) (push (bs_children st) p (an_addr n))) else UB.
Definition store_leaf (h : nat) (p : addr) (n : node) (st : bstate) : outcome bstate :=
  if Nat.ltb (length (bs_leaves st)) (n_leaves h)
  then Ok (BState (bs_nodes st) (bs_leaves st ++ [n]) (push (bs_children st) p (an_addr n))) else UB.

(** balanced_fmm_tree.hpp 401-436 [expandNode]. *)
Definition expand_node (h : nat) (p : addr) (st : bstate) : outcome bstate :=
  do nd <- of_option (bs_lookup st p) ;;
  let child_len := nhalf (an_len nd) in
  let child_depth := an_depth nd + 1 in
  let child leaf j := ANode (j :: p) (child_center d (an_center nd) child_len j) child_len child_depth leaf [] in
  if Nat.ltb child_depth h then ofold (fun s j => store_node h p (child false j) s) (seq 0 (n_children d)) st
  else if Nat.eqb child_depth h then ofold (fun s j => store_leaf h p (child true j) s) (seq 0 (n_children d)) st
  else Ok st.

(** balanced_fmm_tree.hpp 124-137: allocation, root, expansion in breadth-first order.  The traversal visits every node and
    leaf once; its fuel is their number. *)
Definition expand_all (h : nat) (c : list T) (l : T) : outcome bstate :=
  let root := ANode [] c l 0 false [] in
  if Nat.ltb 0 (n_nodes h)
  then bfs (fun st p => bs_children st p) (fun p st => expand_node h p st) (n_nodes h + n_leaves h)
         [[]] (BState [root] [] (fun _ => []))
  else UB.

(** balanced_fmm_tree.hpp 438-466 [distributePointSources]: bucket sort by the flat index of the leaf box. *)
Definition bucket_of (h : nat) (c : list T) (l : T) (x : list T) : outcome nat :=
  do idx <- leaf_box_indices h c l x ;;
  do f <- flat_index h idx ;;
  if (f <? Z.of_nat (n_leaves h))%Z then Ok (Z.to_nat f) else UB.
Definition fill_buckets (h : nat) (c : list T) (l : T) (srcs : list Src) : outcome (list (list Src)) :=
  ofold (fun bs s => do k <- bucket_of h c l (pos s) ;; Ok (update_nth k (fun b => b ++ [s]) bs))
    srcs (repeat [] (n_leaves h)).
Definition set_srcs (n : node) (ss : list Src) : node :=
  ANode (an_addr n) (an_center n) (an_len n) (an_depth n) (an_leaf n) ss.
Definition distribute (h : nat) (c : list T) (l : T) (srcs : list Src) (leaves : list node) : outcome (list node) :=
  do bs <- fill_buckets h c l srcs ;;
  omapM (fun leaf => do k <- bucket_of h c l (an_center leaf) ;; Ok (set_srcs leaf (nth k bs []))) leaves.

(** The tree object before the expansions: [height], the arrays and the child pointers. *)
Record btree := BTree {
  bt_height : nat;
  bt_center : list T;      (* root->center *)
  bt_len : T;              (* root->box_length *)
  bt_nodes : list node;
  bt_leaves : list node;
  bt_children : addr -> list addr
}.
Definition bt_lookup (t : btree) (p : addr) : option node :=
  find (fun n => addr_eqb (an_addr n) p) (bt_nodes t ++ bt_leaves t).

(** balanced_fmm_tree.hpp 361-399 [computeNodeNeighbourhood]. *)
Definition bal_child (t : btree) (nd : node) (ls : nlists) (q : addr) : outcome nlists :=
  do ch <- of_option (bt_lookup t q) ;;
  if nodes_adjacent d nd ch then Ok (push_near ls (an_addr nd) q)
  else
    let ls' := push_inter ls (an_addr nd) q in
    if too_close nd ch then Throw else Ok ls'.
Definition bal_nbhd (t : btree) (p : addr) (ls : nlists) : outcome nlists :=
  match p with
  | [] => Ok (push_near ls [] [])
  | _ :: parent =>
      do nd <- of_option (bt_lookup t p) ;;
      ofold (fun ls pn =>
        ofold (fun ls j => do q <- of_option (nth_error (bt_children t pn) j) ;; bal_child t nd ls q)
          (seq 0 (n_children d)) ls)
        (nl_near ls parent) ls
  end.
(** balanced_fmm_tree.hpp 141-144: the neighbourhoods in breadth-first order. *)
Definition bal_lists (t : btree) : outcome nlists :=
  bfs (fun _ p => bt_children t p) (bal_nbhd t) (length (bt_nodes t) + length (bt_leaves t)) [[]] nl_empty.

(** balanced_fmm_tree.hpp 103-144, for a given height: the structure part of the constructor.  Height 0 is handled
    separately (lines 110-124). *)
Definition bal_build (h : nat) (srcs : list Src) : outcome (btree * nlists) :=
  match root_box d (map pos srcs) with
  | None => UB
  | Some (c, l) =>
      match h with
      | O =>
          let t := BTree 0 c l [] [ANode [] c l 0 true srcs] (fun _ => []) in
          do ls <- bal_nbhd t [] nl_empty ;; Ok (t, ls)
      | _ =>
          do st <- expand_all h c l ;;
          do leaves <- distribute h c l srcs (bs_leaves st) ;;
          let t := BTree h c l (bs_nodes st) leaves (bs_children st) in
          do ls <- bal_lists t ;;
          Ok (t, ls)
      end
  end.

(** The lookup of the containing leaf, balanced_fmm_tree.hpp 207-208, 245-246:
    [leaves[getMortonIndex(getLeafBoxIndices(x))]]. *)
Definition bal_containing_leaf (t : btree) (x : list T) : outcome node :=
  do idx <- leaf_box_indices (bt_height t) (bt_center t) (bt_len t) x ;;
  do k <- morton_index (bt_height t) idx ;;
  of_option (nth_error (bt_leaves t) (Z.to_nat k)).

End Balanced.
