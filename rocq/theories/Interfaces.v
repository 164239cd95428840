(** Models of the programs around the library: the flat-array interface for Mathematica (fmm/mathematica/MathematicaFMM.cpp,
    fmm/mathematica/mathematica.cpp), the integrator (fmm/examples/integrator.cpp) and reading and writing of files
    (fmm/fmm_general.hpp 76-143). *)
From Coq Require Import List Bool ZArith Arith Reals.
From Verif Require Import Num Outcome Vec Tables Schedule Fields FmmPasses FmmApi.
Import ListNotations.
Local Open Scope outcome_scope.

(** ** Arrays and loops *)
(** [data[k]] on a pointer or a vector: undefined behaviour outside the array. *)
Definition rd {A} (data : list A) (k : nat) : outcome A := of_option (nth_error data k).
(** [data[k] = x]. *)
Definition wr {A} (data : list A) (k : nat) (x : A) : outcome (list A) :=
  if (k <? length data)%nat then Ok (lset data k x) else UB.

(** A [#pragma omp parallel for] that changes a shared state: iterations are lists of steps. *)
Definition par_loop {S} (its : list (list (S -> outcome S))) (s : S) (r : outcome S) : Prop :=
  exists run, interleaving its run /\ r = ofold (fun s f => f s) run s.
(** Sequential composition of program parts with several possible outcomes. *)
Definition andthen {A B} (P : outcome A -> Prop) (Q : A -> outcome B -> Prop) (r : outcome B) : Prop :=
  exists a, P a /\ match a with Ok x => Q x r | _ => r = (do x <- a ;; UB) end.

(** ** Flat arrays, mathematica/MathematicaFMM.cpp *)
(** Lines 52-55 (and 109-111, 164-166, 217-219, 277-280, 287-290, 350-353, 360-363): point [i] of a flat array. *)
Definition read_point (d : nat) (data : list R) (i : nat) : outcome (list R) := omapM (fun j => rd data (d * i + j)) (seq 0 d).
(** Lines 48-58 (and 104-114, 159-169, 270-283, 343-356): the source vector, filled by a parallel loop. *)
Definition unpack_step (d : nat) (pos chg : list R) (i : nat) (v : list (psrc R)) : outcome (list (psrc R)) :=
  do x <- read_point d pos i ;; do q <- rd chg i ;; wr v i (PSrc x q).
Definition unpack_sources (d : nat) (pos chg : list R) : outcome (list (psrc R)) -> Prop :=
  let n := (length pos / d)%nat in
  par_loop (map (fun i => [unpack_step d pos chg i]) (seq 0 n)) (repeat (PSrc (vzero d) 0%R) n).
(** Lines 285-292 and 358-365: the evaluation points. *)
Definition unpack_points (d : nat) (pts : list R) : outcome (list (list R)) -> Prop :=
  let n := (length pts / d)%nat in
  par_loop (map (fun i => [fun v => do x <- read_point d pts i ;; wr v i x]) (seq 0 n)) (repeat (vzero d) n).
(** Lines 65-70 and 174-179: the vectors [F] into the output array, whose initial contents are [out]. *)
Definition flatten_step (d : nat) (F : list (list R)) (i j : nat) (out : list R) : outcome (list R) :=
  do f <- rd F i ;; do x <- rd f j ;; wr out (d * i + j) x.
Definition flatten (d n : nat) (F : list (list R)) (out : list R) : outcome (list R) -> Prop :=
  par_loop (map (fun i => map (flatten_step d F i) (seq 0 d)) (seq 0 n)) out.
(** Lines 122-125. *)
Definition copy_out (n : nat) (E : list R) (out : list R) : outcome (list R) -> Prop :=
  par_loop (map (fun i => [fun out => do x <- rd E i ;; wr out i x]) (seq 0 n)) out.
(** Lines 303-306 and 367-371: one value for each evaluation point. *)
Definition eval_out (f : list R -> outcome R) (pts : list (list R)) (out : list R) : outcome (list R) -> Prop :=
  par_loop (map (fun i => [fun out => do x <- rd pts i ;; do v <- f x ;; wr out i v]) (seq 0 (length pts))) out.

(** The results of [fields::particleForces] and [fields::particlePotentialEnergies] under some schedule. *)
Definition direct_forces (d : nat) (grav : bool) (eps : R) (srcs : list (psrc R)) (r : outcome (list (list R))) : Prop :=
  match pf_iterations d grav eps srcs with
  | Ok its => exists run, interleaving its run /\ r = Ok (pf_result d (length srcs) run)
  | e => r = (do x <- e ;; UB) end.
Definition direct_energies (d : nat) (grav : bool) (srcs : list (psrc R)) (r : outcome (list R)) : Prop :=
  match ppe_iterations d grav srcs with
  | Ok its => exists run, interleaving its run /\ r = Ok (ppe_result (length srcs) run)
  | e => r = (do x <- e ;; UB) end.

(** The library functions.  [d] is [DIM]; [ctor srcs] the possible results of [AdaptiveFmmTree<DIM, FIELD_TYPE>(sources, ...)],
    [pot] and [frc] the evaluation functions of the object; [pos], [chg], [pts] the contents of the argument tensors; [out] the
    initial contents of the result tensor.  An error of [MTensor_new] is not modelled, nor is [toFile] (line 299), which does not
    change the tree; the 32-bit loop counter holds all indices. *)
Section Library.
Variables (d : nat) (O : Type) (ctor : list (psrc R) -> outcome O -> Prop)
  (pot : list (psrc R) -> O -> list R -> outcome R) (frc : list (psrc R) -> O -> list R -> outcome (list R)).
Notation count l := (length l / d)%nat.
(** Lines 19-74; also mathematica.cpp 8-60, where the loops are sequential, which is one of the schedules. *)
Definition FMMParticleForces (pos chg out : list R) : outcome (list R) -> Prop :=
  andthen (unpack_sources d pos chg) (fun srcs => andthen (ctor srcs) (fun o =>
  andthen (particle_forces d (frc srcs o) srcs) (fun F => flatten d (count pos) F out))).
(** Lines 76-129. *)
Definition FMMParticlePotentialEnergies (pos chg out : list R) : outcome (list R) -> Prop :=
  andthen (unpack_sources d pos chg) (fun srcs => andthen (ctor srcs) (fun o =>
  andthen (particle_energies (pot srcs o) srcs) (fun E => copy_out (count pos) E out))).
(** Lines 236-310. *)
Definition FMMEvaluatePotentials (pos chg pts out : list R) : outcome (list R) -> Prop :=
  andthen (unpack_sources d pos chg) (fun srcs => andthen (unpack_points d pts) (fun ps => andthen (ctor srcs) (fun o =>
  eval_out (pot srcs o) ps out))).
End Library.
(** Lines 132-183. *)
Definition DirectParticleForces (d : nat) (grav : bool) (smooth : R) (pos chg out : list R) : outcome (list R) -> Prop :=
  andthen (unpack_sources d pos chg) (fun srcs => andthen (direct_forces d grav smooth srcs) (fun F => flatten d (length pos / d) F out)).
(** Lines 185-233 (the loops are sequential: one of the schedules). *)
Definition DirectParticlePotentialEnergies (d : nat) (grav : bool) (pos chg out : list R) : outcome (list R) -> Prop :=
  andthen (unpack_sources d pos chg) (fun srcs => andthen (direct_energies d grav srcs) (fun E => copy_out (length pos / d) E out)).
(** Lines 313-376; an [omp for] ends with a barrier. *)
Definition DirectEvaluatePotentials (d : nat) (grav : bool) (pos chg pts out : list R) : outcome (list R) -> Prop :=
  andthen (unpack_sources d pos chg) (fun srcs => andthen (unpack_points d pts) (fun ps => eval_out (potential_sum d grav true srcs) ps out)).

(** ** examples/integrator.cpp *)
(** Lines 15-26. *)
Definition array_to_sources (d n : nat) (positions charges : list R) : outcome (list (psrc R)) :=
  ofold (fun v i => do x <- omapM (fun j => rd positions (i * d + j)) (seq 0 d) ;; do q <- rd charges i ;; wr v i (PSrc x q))
    (seq 0 n) (repeat (PSrc (vzero d) 0%R) n).
(** Lines 30-43.  [A] is the type of the array elements, [inj] the conversion to it. *)
Definition sources_to_array {A} (inj : R -> A) (d : nat) (srcs : list (psrc R)) (positions charges : list A) : outcome (list A * list A) :=
  ofold (fun (st : list A * list A) i =>
      do s <- rd srcs i ;;
      do ps <- ofold (fun ps j => do x <- rd (ps_pos s) j ;; wr ps (i * d + j) (inj x)) (seq 0 d) (fst st) ;;
      do cs <- wr (snd st) i (inj (ps_q s)) ;;
      Ok (ps, cs))
    (seq 0 (length srcs)) (positions, charges).
(** Lines 57-86: [y] holds positions and velocities, [f] receives the derivatives. *)
Definition deriv_loop (d n : nat) (y masses : list R) (forces : list (list R)) (f : list R) : outcome (list R) :=
  ofold (fun f i => ofold (fun f j =>
      do v <- rd y (n * d + i * d + j) ;;
      do f1 <- wr f (i * d + j) v ;;
      do F <- rd forces i ;; do x <- rd F j ;; do m <- rd masses i ;;
      do a <- rdiv x m ;;
      wr f1 (n * d + i * d + j) a) (seq 0 d) f) (seq 0 n) f.
Section Derivative.
Variables (d : nat) (O : Type) (ctor : list (psrc R) -> outcome O -> Prop) (frc : list (psrc R) -> O -> list R -> outcome (list R)).
Definition derivative_func (n : nat) (charges masses y f : list R) : outcome (list R) -> Prop :=
  andthen (fun r => r = array_to_sources d n y charges) (fun srcs => andthen (ctor srcs) (fun o =>
  andthen (particle_forces d (frc srcs o) srcs) (fun forces => fun r => r = deriv_loop d n y masses forces f))).
End Derivative.

(** ** Files, fmm_general.hpp 76-143

    A line is a list of tokens separated by blanks; a token either is a number or cannot be converted at all (tokens such as
    [1.5abc], which convert in part, are not modelled).  A stream is the list of the tokens not yet read and the fail bit. *)
Inductive tok : Type := TNum (x : R) | TJunk.
Definition stream : Type := bool * list tok.
(** [ss >> x] for a [double x]: on a failed stream, or at its end, [x] is unchanged and the fail bit is set; a token that is no
    number stores zero and sets the fail bit.  An uninitialised variable is [None]. *)
Definition extract (ss : stream) (x : option R) : stream * option R :=
  match ss with
  | (true, ts) => ((true, ts), x)
  | (false, []) => ((true, []), x)
  | (false, TNum y :: ts) => ((false, ts), Some y)
  | (false, TJunk :: ts) => ((true, TJunk :: ts), Some 0%R)
  end.
(** Lines 89-92: the loop over the coordinates. *)
Fixpoint extract_all (ss : stream) (xs : list (option R)) : stream * list (option R) :=
  match xs with
  | [] => (ss, [])
  | x :: xs' => let (ss1, y) := extract ss x in let (ss2, ys) := extract_all ss1 xs' in (ss2, y :: ys)
  end.
(** A copy of variables: undefined behaviour if one is uninitialised. *)
Definition value_of (x : option R) : outcome R := of_option x.
(** Lines 76-99.  The variables [pos] and [charge] live outside the loop. *)
Definition read_line (st : list (option R) * option R * list (psrc R)) (line : list tok) : outcome (list (option R) * option R * list (psrc R)) :=
  let '(pos, charge, acc) := st in
  let (ss, pos') := extract_all (false, line) pos in
  let (_, charge') := extract ss charge in
  do x <- omapM value_of pos' ;;
  do q <- value_of charge' ;;
  Ok (pos', charge', acc ++ [PSrc x q]).
Definition readSourcesFromFile (d : nat) (lines : list (list tok)) : outcome (list (psrc R)) :=
  omap snd (ofold read_line lines (repeat None d, None, [])).
(** Lines 101-117, without the rounding of the decimal representation: one line for each source; the parameter [sep] is not used. *)
Definition sourceLocationsToFile (srcs : list (psrc R)) : list (list tok) := map (fun s => map TNum (ps_pos s)) srcs.
(** Lines 119-130: all tokens up to the first that is no number. *)
Fixpoint leading_numbers (ts : list tok) : list R :=
  match ts with TNum x :: r => x :: leading_numbers r | _ => [] end.
Definition vectorFromFile (lines : list (list tok)) : list R := leading_numbers (concat lines).
(** Lines 133-143: into an array. *)
Definition vectorIntoArray (lines : list (list tok)) (at_ : nat) (dest : list (option R)) : outcome (list (option R)) :=
  ofold (fun v ix => wr v (at_ + fst ix) (Some (snd ix))) (combine (seq 0 (length (vectorFromFile lines))) (vectorFromFile lines)) dest.

(** examples/integrator.cpp 126-137: positions and velocities, charges and masses before the first step.  The arrays are
    uninitialised at first; line 144 ff. use all of their elements. *)
Definition initial_state (d : nat) (sources velocities mass : list (list tok)) : outcome (list R * list R * list R) :=
  do srcs <- readSourcesFromFile d sources ;;
  let n := length srcs in
  do st <- sources_to_array Some d srcs (repeat None (2 * d * n)) (repeat None n) ;;
  do positions <- vectorIntoArray velocities (d * n) (fst st) ;;
  do masses <- vectorIntoArray mass 0 (repeat None n) ;;
  do y <- omapM value_of positions ;;
  do q <- omapM value_of (snd st) ;;
  do m <- omapM value_of masses ;;
  Ok (y, q, m).
