(** Arithmetic interface of the structure layer.

    The C++ code computes with [double].  The structure layer of the model is written once, over a class of
    arithmetic operations, and instantiated with:
    - [R]: exact arithmetic (rounding is not modelled),
    - [Q]: execution of examples by [vm_compute],
    - kernel binary64 floats: IEEE double arithmetic, for the theorems about rounded coordinates.
    The combinatorial theorems of AnyTree.v, AnyLists.v and AnyTheorems.v hold for every instance. *)
From Coq Require Import Reals ZArith QArith Qround Floats List Bool Lra.
Import ListNotations.

Class Num (T : Type) := {
  n0 : T;
  n1 : T;
  nadd : T -> T -> T;
  nmul : T -> T -> T;
  ndiv : T -> T -> T;
  nltb : T -> T -> bool;            (* operator<  *)
  nleb : T -> T -> bool;            (* operator<= *)
  nlit : Z -> positive -> T;        (* floating literal num/den *)
  nfloor : T -> option Z            (* std::floor followed by an exact integer reading; None if not finite *)
}.

Declare Scope num_scope.
Delimit Scope num_scope with num.
Notation "x + y" := (nadd x y) : num_scope.
Notation "x * y" := (nmul x y) : num_scope.
Notation "x / y" := (ndiv x y) : num_scope.
Notation "x <? y" := (nltb x y) : num_scope.
Notation "x <=? y" := (nleb x y) : num_scope.

(** [x / 2] and [x / -1]-style helpers used by the C++ expressions. *)
Definition nhalf {T} `{Num T} (x : T) : T := ndiv x (nlit 2 1).
Definition nneg1 {T} `{Num T} : T := nlit (-1) 1.
(** [a > b] is [b < a], [a >= b] is [b <= a], as in C++ (all false on NaN). *)
Definition ngtb {T} `{Num T} (x y : T) : bool := nltb y x.
Definition ngeb {T} `{Num T} (x y : T) : bool := nleb y x.
(** std::min(a,b) = (b < a) ? b : a. *)
Definition nmin {T} `{Num T} (x y : T) : T := if nltb y x then y else x.

(** ** Real instance *)
Definition Rltb (x y : R) : bool := if Rlt_dec x y then true else false.
Definition Rleb (x y : R) : bool := if Rle_dec x y then true else false.

#[global] Instance NumR : Num R := {
  n0 := 0%R; n1 := 1%R;
  nadd := Rplus; nmul := Rmult; ndiv := Rdiv;
  nltb := Rltb; nleb := Rleb;
  nlit := fun z p => (IZR z / IZR (Zpos p))%R;
  nfloor := fun x => Some (Int_part x)
}.

Lemma Rltb_spec x y : reflect (x < y)%R (Rltb x y).
Proof. unfold Rltb; destruct (Rlt_dec x y); constructor; assumption. Qed.
Lemma Rleb_spec x y : reflect (x <= y)%R (Rleb x y).
Proof. unfold Rleb; destruct (Rle_dec x y); constructor; assumption. Qed.
Lemma Rltb_true x y : Rltb x y = true <-> (x < y)%R.
Proof. destruct (Rltb_spec x y); split; intros; try congruence; try easy; lra. Qed.
Lemma Rltb_false x y : Rltb x y = false <-> (y <= x)%R.
Proof. destruct (Rltb_spec x y); split; intros; try congruence; try easy; lra. Qed.
Lemma Rleb_true x y : Rleb x y = true <-> (x <= y)%R.
Proof. destruct (Rleb_spec x y); split; intros; try congruence; try easy; lra. Qed.
Lemma Rleb_false x y : Rleb x y = false <-> (y < x)%R.
Proof. destruct (Rleb_spec x y); split; intros; try congruence; try easy; lra. Qed.

(** ** Rational instance *)
Definition Qltb (x y : Q) : bool := negb (Qle_bool y x).
#[global] Instance NumQ : Num Q := {
  n0 := 0%Q; n1 := 1%Q;
  nadd := fun x y => Qred (Qplus x y); nmul := fun x y => Qred (Qmult x y); ndiv := fun x y => Qred (Qdiv x y);
  nltb := Qltb; nleb := Qle_bool;
  nlit := fun z p => Qred (Qmake z p);
  nfloor := fun x => Some (Qfloor x)
}.

(** ** binary64 instance *)
Definition float_of_Z (z : Z) : float :=
  match z with
  | Z0 => 0%float
  | Zpos p => PrimFloat.of_uint63 (Uint63.of_Z (Zpos p))
  | Zneg p => PrimFloat.opp (PrimFloat.of_uint63 (Uint63.of_Z (Zpos p)))
  end.
Definition float_floor (x : float) : option Z :=
  match Prim2SF x with
  | S754_zero _ => Some 0%Z
  | S754_finite s m e =>
      let v := if s then Zneg m else Zpos m in
      Some (if (0 <=? e)%Z then (v * 2 ^ e)%Z else (v / 2 ^ (- e))%Z)
  | _ => None
  end.
#[global] Instance NumF : Num float := {
  n0 := 0%float; n1 := 1%float;
  nadd := PrimFloat.add; nmul := PrimFloat.mul; ndiv := PrimFloat.div;
  nltb := PrimFloat.ltb; nleb := PrimFloat.leb;
  nlit := fun z p => PrimFloat.div (float_of_Z z) (float_of_Z (Zpos p));
  nfloor := float_floor
}.
