(** Models of the text functions of fmm/debugging.hpp, and of the decimal representation in files (fmm/fmm_general.hpp 101-143,
    fmm/examples/integrator.cpp 106-107, fmm/debugging.hpp 44-72). *)
From Coq Require Import List Bool ZArith Arith Reals String Ascii DecimalString.
From Flocq Require Import Core.
From Verif Require Import Num Outcome Vec Fields Interfaces RoundedCases.
Import ListNotations.

(** ** Numbers in files *)
(** [ofile << setprecision(digits10) << scientific << x]: one digit before the point and 15 behind it, the decimal number nearest to
    [x]; of two nearest ones the one whose last digit is even.  No bounds on the exponent. *)
Definition radix10 : radix := Build_radix 10 eq_refl.
Definition decimal16 (x : R) : R := round radix10 (FLX_exp 16) ZnearestE x.
(** [ifile >> temp] for a [double]: the double nearest to the decimal number read. *)
Definition read_number (x : R) : R := double_round x.

(** debugging.hpp 44-56: [iterableToFile] with the default separator, a newline. *)
Definition iterableToFile (xs : list R) : list (list tok) := map (fun x => [TNum (decimal16 x)]) xs.
(** debugging.hpp 59-72: [vecToFile]; reading past the end of the vector is undefined behaviour. *)
Definition vecToFile (vec : list R) (len : nat) : outcome (list (list tok)) :=
  omapM (fun i => omap (fun x => [TNum (decimal16 x)]) (of_option (nth_error vec i))) (seq 0 len).
(** fmm_general.hpp 101-117: [sourceLocationsToFile], with the decimal representation (cf. [Interfaces.sourceLocationsToFile]). *)
Definition locationsToFile (srcs : list (psrc R)) : list (list tok) := map (fun s => map (fun x => TNum (decimal16 x)) (ps_pos s)) srcs.
(** fmm_general.hpp 119-130: [vectorFromFile<double>], with the conversion to doubles. *)
Definition doublesFromFile (lines : list (list tok)) : list R := map read_number (vectorFromFile lines).

(** ** Text on the console *)
Local Open Scope string_scope.
Section Print.
Context {A : Type}.
Variable show : A -> string.        (* [operator<<] of the elements *)
(** debugging.hpp 26-33. *)
Definition printIterable (obj : list A) (sep : string) : string :=
  "[ " ++ fold_right (fun x out => show x ++ sep ++ " " ++ out) ("]" ++ String (ascii_of_nat 10) "") obj.
(** debugging.hpp 35-42. *)
Definition printVec (vec : list A) (len : nat) (sep : string) : outcome string :=
  omap (fun ss => "[ " ++ fold_right String.append ("]" ++ String (ascii_of_nat 10) "") ss)
    (omapM (fun i => omap (fun x => show x ++ sep ++ " ") (of_option (nth_error vec i))) (seq 0 len)).
End Print.
(** [s << n] for an unsigned [n], without a field width. *)
Definition digits (n : nat) : string := NilEmpty.string_of_uint (Nat.to_uint n).
(** [s << setw(w) << setfill('0') << n]: filled on the left. *)
Fixpoint zeros (k : nat) : string := match k with O => "" | S k' => String "0" (zeros k') end.
Definition padded (w n : nat) : string := zeros (w - String.length (digits n)) ++ digits n.
(** debugging.hpp 18-24: [time_proc_stamp]; the width holds for the first number only. *)
Definition time_proc_stamp (iteration procId : nat) : string := "[" ++ padded 4 iteration ++ "][p" ++ digits procId ++ "]: ".
(** debugging.hpp 13-16: [chrono_duration] of a duration of [num / den] seconds, truncated to whole nanoseconds. *)
Definition chrono_duration (num den : Z) : R := (IZR (Z.quot (num * 10 ^ 9) den) / IZR (10 ^ 9))%R.
