(** The complex arithmetic of std::complex<double> under -ffast-math (fmm/makefile), which is -fcx-limited-range: products and quotients by
    the textbook formulas, every real operation rounded.  std::log of a complex number has the logarithm of std::abs as its real part; the
    imaginary part is not used by the code (multipole_expansion.hpp 103-117, local_expansion.hpp 56-72 and 141-157 take real parts) and 0
    here. *)
From Coq Require Import List Reals.
From Coquelicot Require Import Complex.
From Verif Require Import RoundedExpansion2D.
Import ListNotations.
Local Open Scope R_scope.

Section Textbook.
Variable rnd : R -> R.
Variable hyp : list R -> R.
Variable lg : R -> R.
Definition round_parts (z : C) : C := (rnd (Re z), rnd (Im z)).
Definition mul_t (a b : C) : C :=
  (rnd (rnd (Re a * Re b) - rnd (Im a * Im b)), rnd (rnd (Re a * Im b) + rnd (Im a * Re b))).
Definition div_t (a z : C) : C :=
  let n := rnd (rnd (Re z * Re z) + rnd (Im z * Im z)) in
  (rnd (rnd (rnd (Re a * Re z) + rnd (Im a * Im z)) / n), rnd (rnd (rnd (Im a * Re z) - rnd (Re a * Im z)) / n)).
Definition textbook : carith := {|
  c_add := fun a b => round_parts (a + b)%C;
  c_sub := fun a b => round_parts (a - b)%C;
  c_mul := mul_t;
  c_div := div_t;
  c_addr := fun a x => (rnd (Re a + x), Im a);
  c_scale := fun x a => (rnd (x * Re a), rnd (x * Im a));
  c_divr := fun a x => (rnd (Re a / x), rnd (Im a / x));
  c_log := fun z => (lg (hyp [Re z; Im z]), 0);
  c_bin := fun _ _ b => rnd b |}.
End Textbook.
