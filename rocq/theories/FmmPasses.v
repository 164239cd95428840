(** Model of the expansion passes and of the evaluation of the adaptive FMM tree: fmm/adaptive_fmm_tree.hpp 108-318 and
    569-583, fmm/abstract_fmm_tree.hpp 62-89 and 115-140.

    The model is generic in the operations on expansions (record [ops]); the two-dimensional instance is in
    [FmmTree2D].  The OpenMP loops are modelled as sets of iterations that may interleave, see [Schedule]. *)
From Coq Require Import List Bool Arith Reals.
From Verif Require Import Num Outcome Vec Orthtree AdaptiveTree Schedule Fields.
Import ListNotations.
Local Open Scope outcome_scope.

(** Operations on expansions of a fixed order.  [Tb] is the type of the static lookup tables, which every constructor may
    grow; each operation therefore takes the table and returns it. *)
Record ops (ME LE Tb : Type) : Type := mkops {
  o_default : ME;                                              (* MultipoleExpansion() *)
  o_p2m : Tb -> list R -> list (psrc R) -> outcome (ME * Tb);  (* MultipoleExpansion(center, order, sources) *)
  o_m2m : Tb -> list R -> list ME -> outcome (ME * Tb);        (* MultipoleExpansion(center, expansions) *)
  o_zero : Tb -> list R -> LE * Tb;                            (* LocalExpansion(center, order) *)
  o_m2l : Tb -> list R -> list ME -> outcome (LE * Tb);        (* LocalExpansion(center, expansions) *)
  o_l2l : Tb -> list R -> LE -> outcome (LE * Tb);             (* LocalExpansion(center, local expansion) *)
  o_p2l : Tb -> list R -> list (psrc R) -> outcome (LE * Tb);  (* LocalExpansion(center, order, sources) *)
  o_size : LE -> nat;                                          (* coefficients.size() *)
  o_add : LE -> LE -> outcome LE;                              (* operator+= *)
  o_mpot : ME -> list R -> outcome R;                          (* evaluatePotential *)
  o_lpot : LE -> list R -> outcome R;
  o_mforce : ME -> list R -> outcome (list R);                 (* evaluateForcefield *)
  o_lforce : LE -> list R -> outcome (list R)
}.
Arguments o_default {ME LE Tb}.
Arguments o_p2m {ME LE Tb}.
Arguments o_m2m {ME LE Tb}.
Arguments o_zero {ME LE Tb}.
Arguments o_m2l {ME LE Tb}.
Arguments o_l2l {ME LE Tb}.
Arguments o_p2l {ME LE Tb}.
Arguments o_size {ME LE Tb}.
Arguments o_add {ME LE Tb}.
Arguments o_mpot {ME LE Tb}.
Arguments o_lpot {ME LE Tb}.
Arguments o_mforce {ME LE Tb}.
Arguments o_lforce {ME LE Tb}.

Section Passes.
Context {ME LE Tb : Type}.
Variable o : ops ME LE Tb.
Variable d : nat.

Notation node := (@anode R (psrc R)).
Notation tree := (@atree R (psrc R)).

(** The shared memory during the passes: the members [multipole_expansion] and [local_expansion] of every node
    (adaptive_fmm_tree.hpp 65-66) and the static lookup table. *)
Record mem : Type := Mem { m_me : addr -> option ME; m_le : addr -> option LE; m_tb : Tb }.
Definition set_me (m : mem) (a : addr) (e : ME) : mem :=
  Mem (fun q => if addr_eqb q a then Some e else m_me m q) (m_le m) (m_tb m).
Definition set_le (m : mem) (a : addr) (e : LE) : mem :=
  Mem (m_me m) (fun q => if addr_eqb q a then Some e else m_le m q) (m_tb m).
Definition set_tb (m : mem) (tb : Tb) : mem := Mem (m_me m) (m_le m) tb.

(** The variables local to one loop iteration: [children_expansions] / [incoming], and the temporary local expansion on
    the right of [+=]. *)
Record locals : Type := Locals { lc_mes : list ME; lc_le : option LE }.
Definition no_locals : locals := Locals [] None.

(** One step of an iteration. *)
Definition step : Type := mem * locals -> outcome (mem * locals).

(** Read the multipole expansion of another node (adaptive_fmm_tree.hpp 177-181, abstract_fmm_tree.hpp 133-135).  The code
    stores a pointer and reads through it in the constructor called next; here the value is read at once. *)
Definition st_read_me (q : addr) : step := fun ml =>
  do e <- of_option (m_me (fst ml) q) ;;
  Ok (fst ml, Locals (lc_mes (snd ml) ++ [e]) (lc_le (snd ml))).

(** adaptive_fmm_tree.hpp 160. *)
Definition st_p2m (n : node) : step := fun ml =>
  do r <- o_p2m o (m_tb (fst ml)) (an_center n) (an_srcs n) ;;
  Ok (set_me (set_tb (fst ml) (snd r)) (an_addr n) (fst r), snd ml).

(** adaptive_fmm_tree.hpp 183. *)
Definition st_m2m (n : node) : step := fun ml =>
  do r <- o_m2m o (m_tb (fst ml)) (an_center n) (lc_mes (snd ml)) ;;
  Ok (set_me (set_tb (fst ml) (snd r)) (an_addr n) (fst r), snd ml).

(** abstract_fmm_tree.hpp 119-124, right operand: the parent's local expansion, shifted. *)
Definition st_l2l (n : node) : step := fun ml =>
  match an_addr n with
  | [] => Abort
  | _ :: parent =>
      do pe <- of_option (m_le (fst ml) parent) ;;
      if o_size o pe =? 0 then Abort
      else
        do r <- o_l2l o (m_tb (fst ml)) (an_center n) pe ;;
        Ok (set_tb (fst ml) (snd r), Locals (lc_mes (snd ml)) (Some (fst r)))
  end.

(** [node.local_expansion += e]. *)
Definition add_le (m : mem) (a : addr) (e : LE) : outcome mem :=
  do own <- of_option (m_le m a) ;;
  do s <- o_add o own e ;;
  Ok (set_le m a s).

(** abstract_fmm_tree.hpp 124, the addition. *)
Definition st_add (n : node) : step := fun ml =>
  do e <- of_option (lc_le (snd ml)) ;;
  do m <- add_le (fst ml) (an_addr n) e ;;
  Ok (m, snd ml).

(** abstract_fmm_tree.hpp 137-139. *)
Definition st_m2l (n : node) : step := fun ml =>
  match lc_mes (snd ml) with
  | [] => Ok ml
  | es =>
      do r <- o_m2l o (m_tb (fst ml)) (an_center n) es ;;
      do m <- add_le (set_tb (fst ml) (snd r)) (an_addr n) (fst r) ;;
      Ok (m, snd ml)
  end.

(** Body of the loop of adaptive_fmm_tree.hpp 572-574: a leaf of the X list. *)
Definition st_p2l (t : tree) (n : node) (q : addr) : step := fun ml =>
  do leaf <- of_option (lookup t q) ;;
  if an_leaf leaf then
    do r <- o_p2l o (m_tb (fst ml)) (an_center n) (an_srcs leaf) ;;
    do m <- add_le (set_tb (fst ml) (snd r)) (an_addr n) (fst r) ;;
    Ok (m, snd ml)
  else UB.

(** adaptive_fmm_tree.hpp 159-160: one iteration of the leaf loop. *)
Definition it_p2m (n : node) : list step := [st_p2m n].
(** adaptive_fmm_tree.hpp 174-183: one iteration of the merging loop. *)
Definition it_m2m (t : tree) (n : node) : list step :=
  map st_read_me (children d t (an_addr n)) ++ [st_m2m n].
(** adaptive_fmm_tree.hpp 577-583 [constructLocalExpansion]. *)
Definition it_local (t : tree) (ls : nlists) (n : node) : list step :=
  [st_l2l n; st_add n] ++ map st_read_me (nl_inter ls (an_addr n)) ++ [st_m2l n] ++ map (st_p2l t n) (nl_X ls (an_addr n)).

(** A parallel region: its iterations. *)
Definition region := list (list step).

(** Memory after the nodes have been created (adaptive_fmm_tree.hpp 123-124, 134, 477-487): default multipole expansions,
    zero local expansions; creating a local expansion grows the table. *)
Definition mem0 (t : tree) (tb : Tb) : mem :=
  Mem (fun a => match lookup t a with Some _ => Some (o_default o) | None => None end)
      (fun a => match lookup t a with Some n => Some (fst (o_zero o tb (an_center n))) | None => None end)
      (snd (o_zero o tb [])).

(** The parallel regions of the constructor in order, adaptive_fmm_tree.hpp 156-219: leaf expansions level by level;
    merging on levels height-1, ..., 2; local expansions on levels 2, ..., height-1, nodes and leaves of a level in one
    region (the loop over the nodes has a [nowait] clause); the leaves of the last level. *)
Definition regions (t : tree) (ls : nlists) : list region :=
  map (fun level => map it_p2m level) (at_leaves t)
  ++ map (fun i => map (it_m2m t) (nth i (at_nodes t) [])) (rev (seq 2 (at_height t - 2)))
  ++ map (fun i => map (it_local t ls) (nth i (at_nodes t) [] ++ nth i (at_leaves t) [])) (seq 2 (at_height t - 2))
  ++ [map (it_local t ls) (nth (at_height t) (at_leaves t) [])].

(** Run of one region along an interleaving of its steps; each iteration [i] has its own local variables. *)
Definition exec_step (s : mem * (nat -> locals)) (e : nat * step) : outcome (mem * (nat -> locals)) :=
  do r <- snd e (fst s, snd s (fst e)) ;;
  Ok (fst r, fun i => if i =? fst e then snd r else snd s i).
Definition exec (run : list (nat * step)) (m : mem) : outcome mem :=
  omap fst (ofold exec_step run (m, fun _ => no_locals)).
Definition tagged (rg : region) : list (list (nat * step)) :=
  map (fun i => map (pair i) (nth i rg [])) (seq 0 (length rg)).

(** The possible results of a parallel region: one for every interleaving. *)
Definition region_result (rg : region) (m : mem) (r : outcome mem) : Prop :=
  exists run, interleaving (tagged rg) run /\ r = exec run m.

(** The possible results of consecutive regions (there is a barrier at the end of each). *)
Inductive passes_result : list region -> mem -> outcome mem -> Prop :=
| pr_nil m : passes_result [] m (Ok m)
| pr_ok rg rgs m m' r : region_result rg m (Ok m') -> passes_result rgs m' r -> passes_result (rg :: rgs) m r
| pr_fail rg rgs m r : region_result rg m r -> (forall m', r <> Ok m') -> passes_result (rg :: rgs) m r.

(** The constructed tree object. *)
Record fmm : Type := Fmm { f_tree : tree; f_lists : nlists; f_mem : mem }.

(** The possible results of the constructor, adaptive_fmm_tree.hpp 108-220, for expansions described by [o] and the static
    table [tb].  The case of a single leaf skips the passes (lines 121-132).  Lines 164-165 are assertions. *)
Inductive make_fmm (cap fuel : nat) (srcs : list (psrc R)) (tb : Tb) : outcome fmm -> Prop :=
| mf_build r : build_adaptive d (@ps_pos R) cap fuel srcs = r -> (forall t, r <> Ok t) ->
    make_fmm cap fuel srcs tb (omap (fun t => Fmm t nl_empty (mem0 t tb)) r)
| mf_lists t r : build_adaptive d (@ps_pos R) cap fuel srcs = Ok t -> all_lists d t = r -> (forall ls, r <> Ok ls) ->
    make_fmm cap fuel srcs tb (omap (fun ls => Fmm t ls (mem0 t tb)) r)
| mf_leaf t ls : build_adaptive d (@ps_pos R) cap fuel srcs = Ok t -> all_lists d t = Ok ls ->
    length srcs <= cap -> make_fmm cap fuel srcs tb (Ok (Fmm t ls (mem0 t tb)))
| mf_assert t ls : build_adaptive d (@ps_pos R) cap fuel srcs = Ok t -> all_lists d t = Ok ls ->
    cap < length srcs -> (at_height t <> length (at_nodes t) \/ at_height t + 1 <> length (at_leaves t)) ->
    make_fmm cap fuel srcs tb Abort
| mf_passes t ls r : build_adaptive d (@ps_pos R) cap fuel srcs = Ok t -> all_lists d t = Ok ls ->
    cap < length srcs -> at_height t = length (at_nodes t) -> at_height t + 1 = length (at_leaves t) ->
    passes_result (regions t ls) (mem0 t tb) r ->
    make_fmm cap fuel srcs tb (omap (fun m => Fmm t ls m) r).

(** [evaluatePotential], adaptive_fmm_tree.hpp 222-269; [field] is [field_type]. *)
Definition eval_pot (field : bool) (srcs : list (psrc R)) (f : fmm) (x : list R) : outcome R :=
  do cl <- containing_leaf d (f_tree f) x ;;
  match cl with
  | None => potential_sum d field false srcs x
  | Some L =>
      do le <- of_option (m_le (f_mem f) (an_addr L)) ;;
      do p0 <- o_lpot o le x ;;
      do p1 <- ofold (fun pot q =>
          do e <- of_option (m_me (f_mem f) q) ;;
          do v <- o_mpot o e x ;;
          Ok (pot + v)%R) (nl_W (f_lists f) (an_addr L)) p0 ;;
      do p2 <- ofold (fun pot q =>
          do n <- of_option (lookup (f_tree f) q) ;;
          if an_leaf n then
            do v <- potential_sum d true (addr_eqb q (an_addr L)) (an_srcs n) x ;;
            Ok (pot + v)%R
          else UB) (nl_near (f_lists f) (an_addr L)) p1 ;;
      Ok (if field then p2 else - p2)%R
  end.

(** [evaluateForcefield], adaptive_fmm_tree.hpp 271-318; [eps] is [force_smoothing_eps]. *)
Definition eval_force (field : bool) (eps : R) (srcs : list (psrc R)) (f : fmm) (x : list R) : outcome (list R) :=
  do cl <- containing_leaf d (f_tree f) x ;;
  match cl with
  | None => forcefield_sum d field false eps srcs x
  | Some L =>
      do le <- of_option (m_le (f_mem f) (an_addr L)) ;;
      do p0 <- o_lforce o le x ;;
      do p1 <- ofold (fun frc q =>
          do e <- of_option (m_me (f_mem f) q) ;;
          do v <- o_mforce o e x ;;
          Ok (vadd frc v)) (nl_W (f_lists f) (an_addr L)) p0 ;;
      do p2 <- ofold (fun frc q =>
          do n <- of_option (lookup (f_tree f) q) ;;
          if an_leaf n then
            do v <- forcefield_sum d true (addr_eqb q (an_addr L)) eps (an_srcs n) x ;;
            Ok (vadd frc v)
          else UB) (nl_near (f_lists f) (an_addr L)) p1 ;;
      Ok (if field then p2 else vneg p2)
  end.

End Passes.
