(** Model of [main] of fmm/examples/integrator.cpp (lines 88-173) around the ODE solver of GSL, which is arbitrary. *)
From Coq Require Import List Bool Arith Reals.
From Verif Require Import Outcome Interfaces.
Import ListNotations.
Local Open Scope R_scope.
Local Open Scope outcome_scope.

Section Main.
(** [alloc charges masses]: the driver object for the system of lines 144-147; [apply driver t ti y]: a call of
    [gsl_odeiv2_driver_apply], with the driver, the time and the array afterwards and whether the status is GSL_SUCCESS.  A call
    may also end in an outcome of the derivative function, e.g. an exception. *)
Variables (D : Type) (alloc : list R -> list R -> D) (apply : D -> R -> R -> list R -> outcome (D * R * list R * bool)).

(** Lines 113, 114 and 151. *)
Definition t_end : R := 10.
Definition n_saves : nat := 100.
Definition save_time (i : nat) : R := INR i * t_end / INR n_saves.

(** Lines 149-165: the loop, with the lines written so far; [len] is [2*d*N].  Trailing tabs are not modelled. *)
Fixpoint save_loop (len : nat) (todo : list nat) (driver : D) (t : R) (y : list R) (file : list (list tok)) : outcome (list (list tok)) :=
  match todo with
  | [] => Ok file
  | i :: rest =>
      do r <- apply driver t (save_time i) y ;;
      let '(driver', t', y', success) := r in
      if success then
        do line <- omapM (rd y') (seq 0 len) ;;
        save_loop len rest driver' t' y' (file ++ [[TNum (save_time i)]; map TNum line])
      else Ok file
  end.

(** Lines 88-173.  An argument is the contents of the input file, if it exists; [opened]: whether logs/trajectory.dat could be
    opened for writing (an [ofstream] that is not open discards its output).  The result is the contents of that file; the exit
    status is always 0. *)
Definition integrator_main (sources velocities masses : option (list (list tok))) (opened : bool) : outcome (list (list tok)) :=
  match sources, velocities, masses with
  | Some fs, Some fv, Some fm =>
      do st <- initial_state 2 fs fv fm ;;
      let '(y, charges, m) := st in
      do file <- save_loop (2 * 2 * length charges) (seq 1 n_saves) (alloc charges m) 0 y [] ;;
      Ok (if opened then file else [])
  | _, _, _ => Throw
  end.
End Main.
