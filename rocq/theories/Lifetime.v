(** Models of the allocation and release of memory by the tree objects: [new] in the constructors and [delete] in the
    destructors.  adaptive_fmm_tree.hpp 46, 81, 121-142, 470-493, adaptive_point_orthtree.hpp 33, 43-49, 80, 140-157,
    balanced_fmm_tree.hpp 44-47, 87, 110-126, 438-466.

    A heap tells which blocks are allocated.  Releasing a block that is not allocated is undefined behaviour, as is reading the
    members of an object in such a block.  Memory owned by members of type [std::vector] is released with their object. *)
From Coq Require Import List Bool ZArith Arith.
From Verif Require Import Num Outcome Vec Orthtree AdaptiveTree BalancedTree.
Import ListNotations.
Local Open Scope outcome_scope.

Section Heap.
Context {B : Type}.
Variable eqb : B -> B -> bool.
Definition mheap : Type := B -> bool.
(** [new]: the block is fresh; the caller gives it its name ([Abort] if the name is in use, which the theorems exclude). *)
Definition alloc (b : B) (h : mheap) : outcome mheap := if h b then Abort else Ok (fun x => eqb x b || h x).
(** [delete] of a non-null pointer: the release of the block. *)
Definition release (b : B) (h : mheap) : outcome mheap := if h b then Ok (fun x => negb (eqb x b) && h x) else UB.
End Heap.

(** ** Adaptive trees.  A block holds one node or leaf; it is named by the tree object that allocated it and the address of the
    node. *)
Definition ablock : Type := (nat * addr)%type.
Definition ablock_eqb (a b : ablock) : bool := Nat.eqb (fst a) (fst b) && addr_eqb (snd a) (snd b).
Section Adaptive.
Context {T : Type} {N : Num T} {D : Dist T} {Src : Type}.
Variable d : nat.
Variable o : nat.   (* the tree object *)
(** The constructor allocates every node and leaf of the tree it builds (adaptive_fmm_tree.hpp 123, 134, 477, 486). *)
Definition construct (t : @atree T Src) (h : mheap) : outcome mheap := 
  ofold (fun h n => alloc ablock_eqb (o, an_addr n) h) (AdaptiveTree.heap t) h.
(** [delete node] (adaptive_fmm_tree.hpp 46 and 81): the destructor deletes the children, then the block is released.  Fuel bounds the
    recursion depth. *)
Fixpoint delete_node (t : @atree T Src) (fuel : nat) (p : addr) (h : mheap) : outcome mheap :=
  match fuel with
  | O => OutOfFuel
  | S fuel' =>
      if h (o, p) then
        do h' <- ofold (fun h q => delete_node t fuel' q h) (children d t p) h ;;
        release ablock_eqb (o, p) h'
      else UB
  end.
(** The destructor of the tree object, adaptive_fmm_tree.hpp 46: [delete this->root].  The implicit copy constructor copies the pointer: the destructor of a copy
    is the same function on the same blocks. *)
Definition destroy (t : @atree T Src) (fuel : nat) (h : mheap) : outcome mheap := delete_node t fuel [] h.
End Adaptive.

(** ** The balanced tree: the arrays [nodes] and [leaves], the table of buckets and the buckets. *)
Inductive bblock : Type := BNodes | BLeaves | BTable | BVec (k : nat).
Definition bblock_eqb (a b : bblock) : bool :=
  match a, b with
  | BNodes, BNodes | BLeaves, BLeaves | BTable, BTable => true
  | BVec i, BVec j => Nat.eqb i j
  | _, _ => false
  end.
Definition obblock_eqb (a b : nat * bblock) : bool := Nat.eqb (fst a) (fst b) && bblock_eqb (snd a) (snd b).

Section Balanced.
Context {T : Type} {N : Num T} {D : Dist T} {Src : Type}.
Variable d : nat.
Variable pos : Src -> list T.
Variable o : nat.   (* the tree object *)
Definition balloc (b : bblock) : mheap -> outcome mheap := alloc obblock_eqb (o, b).
Definition brelease (b : bblock) : mheap -> outcome mheap := release obblock_eqb (o, b).
(** The members [sources] of the leaves after [distributePointSources], as bucket numbers. *)
Definition leaf_buckets (h : nat) (c : list T) (l : T) (leaves : list (@anode T Src)) : outcome (list nat) :=
  omapM (fun leaf => bucket_of d h c l (an_center leaf)) leaves.
(** The heap operations of the constructor (balanced_fmm_tree.hpp 110-126 and 438-466) in a tree of height [h] with the given root box.  The result is the
    heap with the outcome: the buckets of the leaves, or the exception.  The destructor is not called after an exception in
    the constructor. *)
Definition bal_construct (h : nat) (c : list T) (l : T) (srcs : list Src) (m : mheap) : outcome (mheap * outcome (list nat)) :=
  match h with
  | O =>
      do m1 <- balloc BLeaves m ;;
      do m2 <- balloc (BVec 0) m1 ;;
      Ok (m2, Ok [0])
  | _ =>
      do m1 <- balloc BNodes m ;;
      do m2 <- balloc BLeaves m1 ;;
      match expand_all d h c l with
      | Ok st =>
          do m3 <- balloc BTable m2 ;;
          do m4 <- ofold (fun m k => balloc (BVec k) m) (seq 0 (n_leaves d h)) m3 ;;
          match (do bs <- fill_buckets d pos h c l srcs ;; leaf_buckets h c l (bs_leaves st)) with
          | Ok ks => do m5 <- brelease BTable m4 ;; Ok (m5, Ok ks)
          | e => Ok (m4, e)
          end
      | e => Ok (m2, do st <- e ;; UB)
      end
  end.
(** The destructor, balanced_fmm_tree.hpp 44-47 and 87; [ks] are the buckets of the leaves.  An array is destroyed from its end.  [nodes] is
    null in a tree of height 0. *)
Definition bal_destroy (h : nat) (ks : list nat) (m : mheap) : outcome mheap :=
  do m1 <- (match h with O => Ok m | _ => brelease BNodes m end) ;;
  if m1 (o, BLeaves) then
    do m2 <- ofold (fun m k => brelease (BVec k) m) (rev ks) m1 ;;
    brelease BLeaves m2
  else UB.
End Balanced.
