(** Model of the power and binomial tables used by the two-dimensional expansions.

    Rounding is not modelled: [double] arithmetic is exact arithmetic on [R]. *)
From Coq Require Import Reals List Arith.
From Verif Require Import Outcome.
Import ListNotations.
Local Open Scope nat_scope.

(** [v[k] = x] on a [std::vector]; the caller checks the range where the code could leave it. *)
Fixpoint lset {A} (l : list A) (k : nat) (x : A) : list A :=
  match l, k with
  | [], _ => []
  | _ :: r, O => x :: r
  | a :: r, S k' => a :: lset r k' x
  end.

(** [std::vector::resize] to a larger size: old entries stay, new ones are value-initialised. *)
Definition resize {A} (zero : A) (l : list A) (n : nat) : list A :=
  firstn n l ++ repeat zero (n - length l).

(** ** PowTable

    Models fmm/fmm_tables.hpp 16-32: constructor loop filling [1, x, ..., x^nmax]. *)
Fixpoint pow_fill {T} (mul : T -> T -> T) (x x_pow : T) (n : nat) : list T :=
  match n with
  | O => []
  | S m => x_pow :: pow_fill mul x (mul x_pow x) m
  end.
Definition pow_table {T} (one : T) (mul : T -> T -> T) (x : T) (nmax : nat) : list T :=
  pow_fill mul x one (S nmax).

(** [operator()] of PowTable, fmm_tables.hpp 31: unchecked access. *)
Definition pow_get {T} (tab : list T) (n : nat) : outcome T := of_option (nth_error tab n).

(** ** BinomialTable

    Models fmm_tables.hpp 34-66.  [bt_max] is [max_order], [bt_tab] is [table].  32-bit overflow of the index
    computation (orders above 20000) is not modelled. *)
Record btab : Type := mkbt { bt_max : nat; bt_tab : list R }.

(** Models [gsl_sf_choose] (used in fmm_tables.hpp 53) as the exact binomial coefficient. *)
Fixpoint choose (n k : nat) : nat :=
  match n, k with
  | _, O => 1
  | O, S _ => 0
  | S n', S k' => choose n' k' + choose n' k
  end.

(** fmm_tables.hpp 58-60, [getTableIndex]. *)
Definition bt_index (n k : nat) : nat := (n * (n + 1)) / 2 + k.

(** The double loop of fmm_tables.hpp 51-55. *)
Definition bt_fill (order : nat) (tab : list R) : list R :=
  fold_left (fun t n =>
      fold_left (fun t' k => lset t' (bt_index n k) (INR (choose n k))) (seq 0 (S n)) t)
    (seq 0 (S order)) tab.

(** fmm_tables.hpp 44-56, [refresh]. *)
Definition bt_refresh (tb : btab) (order : nat) : btab :=
  if order <=? bt_max tb then tb
  else mkbt order (bt_fill order (resize 0%R (bt_tab tb) (((2 * order + 1) * (2 * order + 2)) / 2))).

(** The static object before any expansion exists: default construction with order 0, fmm_tables.hpp 39-42 and
    series_expansion.hpp 43. *)
Definition bt_init : btab := mkbt 0 [].

(** fmm_tables.hpp 62-64, [operator()]: unchecked access. *)
Definition bt_get (tb : btab) (n k : nat) : outcome R := of_option (nth_error (bt_tab tb) (bt_index n k)).
