(** Accuracy of complex arithmetic. *)
From Coq Require Import Reals.
From Coquelicot Require Import Complex.
From Verif Require Import CAux RoundedExpansion2D.
Local Open Scope R_scope.

(** [x'] has relative error at most [w] with respect to [x]. *)
Definition close (w x' x : R) : Prop := Rabs (x' - x) <= w * Rabs x.
(** The same in both components, and in absolute value. *)
Definition close_parts (w : R) (z' z : C) : Prop := close w (Re z') (Re z) /\ close w (Im z') (Im z).
Definition close_norm (w : R) (z' z : C) : Prop := Cmod (z' - z)%C <= w * Cmod z.

(** A complex arithmetic with relative errors at most [w]: sums, differences and the operations with a real number are accurate
    in both components; products and quotients are accurate in absolute value, and a product with a real factor has an
    accurate real part; the real part of the logarithm has the error [w] relative to its size or absolutely; the binomials are
    accurate. *)
Record accurate_complex (w : R) (A : carith) : Prop := {
  ac_add : forall a b, close_parts w (c_add A a b) (a + b)%C;
  ac_sub : forall a b, close_parts w (c_sub A a b) (a - b)%C;
  ac_addr : forall a x, close w (Re (c_addr A a x)) (Re a + x) /\ Im (c_addr A a x) = Im a;
  ac_scale : forall x a, close_parts w (c_scale A x a) (RtoC x * a)%C;
  ac_divr : forall a x, x <> 0 -> close_parts w (c_divr A a x) (a / RtoC x)%C;
  ac_mul : forall a b, close_norm w (c_mul A a b) (a * b)%C;
  ac_mul_real : forall a b, Im a = 0 \/ Im b = 0 -> close w (Re (c_mul A a b)) (Re (a * b)%C);
  ac_div : forall a z, z <> RtoC 0 -> close_norm w (c_div A a z) (a / z)%C;
  ac_log : forall z, z <> RtoC 0 -> Rabs (Re (c_log A z) - ln (Cmod z)) <= w * (1 + Rabs (ln (Cmod z)));
  ac_bin : forall n k x, close w (c_bin A n k x) x }.
