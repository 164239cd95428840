(** The tree constructors in rounded arithmetic: the model of the trees (BalancedTree.v, AdaptiveTree.v), which is written over
    any arithmetic, at the real numbers with a rounding after every operation.

    [rnd] is the rounding of one arithmetic operation or literal and [hyp] the library norm, as in RoundedFields.v.  In the
    range of the model no operation overflows or underflows, hence there are no infinities and no NaN. *)
From Coq Require Import Reals List ZArith.
From Verif Require Import Num Vec.
Local Open Scope R_scope.

(** The operations on [double]s in abstract_orthtree.hpp 72-197, adaptive_orthtree.hpp 24-35, balanced_orthtree.hpp 25-107,
    abstract_fmm_tree.hpp 91-113 and vector.hpp 17-56.  Comparisons are exact, and so are [std::floor] and the conversions to
    integers (balanced_orthtree.hpp 41); sums, products, quotients and literals are rounded. *)
Definition NumRnd (rnd : R -> R) : Num R := {|
  n0 := 0; n1 := 1;
  nadd := fun x y => rnd (x + y); nmul := fun x y => rnd (x * y); ndiv := fun x y => rnd (x / y);
  nltb := Rltb; nleb := Rleb;
  nlit := fun z p => rnd (IZR z / IZR (Zpos p));
  nfloor := fun x => Some (Int_part x)
|}.
(** vector.hpp 63-75 [norm], compared with a bound (balanced_fmm_tree.hpp 391-392, adaptive_fmm_tree.hpp 558-559). *)
Definition DistRnd (hyp : list R -> R) : Dist R := {| norm_ltb := fun v b => Rltb (hyp v) b |}.
