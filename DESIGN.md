# Formal model of jrotheneder/FMM in Rocq (Coq 8.16.1)

## Approach

The C++ templates are modelled function by function as Gallina functions.  Two layers are used.

* **Structure layer** (trees, boxes, index arithmetic, neighbour lists, traversals, passes): executable functions,
  generic in a class `Num T` of arithmetic operations (`Num.v`) and, for the norm, in a class `Dist T` (`Vec.v`).  The same text
  is instantiated with `R` (most theorems), with `Q` (execution of examples by `vm_compute`) and with the kernel's binary64 floats
  (C74-C78, C87, C89: the trees in IEEE double arithmetic, by theorems that hold for every arithmetic or by execution), and with
  `R` where every operation is followed by a rounding with bounded relative error (C86, C88, C90, C91, C93-C95, C97, C98).  C99 relates
  the last two instances, C100 draws the consequences.
* **Analysis layer** (fields, 2D and 3D expansions): functions over `R` and Coquelicot's `C`.  A C++ computation that
  would produce a non-finite number (log 0, division by 0) or undefined behaviour is a distinct outcome
  (`None`, `UB`, `Abort`, `Throw`), never a default number.

* **Rounded layer**: the fields, the all-pairs functions, the trees and the two-dimensional expansions with a rounding after every operation
  (C79-C86, C88, C90, C91, C93-C95); the complex arithmetic is any with bounded relative errors.

In all other properties doubles are modelled by exact reals: rounding is *not* modelled, so bounds are truncation-error bounds.
OpenMP loops are modelled as unordered collections of iterations / atomic updates and theorems quantify over all orders.

Pointers to tree nodes are modelled by addresses: the reversed path of child indices from the root (adaptive trees)
or array positions (balanced tree, as in the code).

The FMM passes are generic in a record of kernel operations (P2M, M2M, M2L, L2L, P2L, evaluation), just as the C++ is
generic in `MultipoleExpansion<d>`/`LocalExpansion<d>`.  They are instantiated with the 2D and the 3D expansions.

## Per-property plan

| id | what is modelled, how it is proved |
|---|---|
| C01 | Polar/spherical conversion round-trips: `toSpherical`/`toCartesian` over R with C's `atan2`; case analysis on quadrants and trigonometric identities. |
| C02 | Spherical-basis to Cartesian conversion is the documented rotation: `toCartesianBasis` over R; ring identities from sin^2+cos^2=1. |
| C03 | Direct potential is a superposition with the documented sign convention: `potential` over R with `None` for log 0; induction on the list, permutation invariance. |
| C04 | Force field is minus the gradient of the potential: derivatives via Coquelicot `is_derive`. |
| C05 | Safe evaluation skips exactly the coincident sources: induction over the source list, both flags. |
| C06 | Newton's third law for the direct force sum: from C08 by antisymmetry, double sum over pairs. |
| C07 | particlePotentialEnergies is schedule independent and correct: iterations as lists of atomic additions to cells; every interleaving is a permutation; sum in R is permutation invariant; result characterised by a double sum. |
| C08 | particleForces is schedule independent and correct: as C07, per component. |
| C09 | Power table: loop as fold writing a list; induction. |
| C10 | Binomial lookups within the refreshed order are Pascal's triangle after any history: table state machine `refresh`, invariant over arbitrary request histories; triangular index injectivity. |
| C11 | 2D multipole-to-local conversion computes the documented coefficients: model of `multipoleToLocal` with explicit table state; refutation by a concrete order, plus the exact set of terms that are present. |
| C12 | Expansion results do not depend on unrelated earlier constructions: shift proved history independent; M2L refuted by two histories. |
| C13 | A_n^m lookups are correct after any history: as C10 for the (l,m) table over R. |
| C14 | Sign functions are total and equal the documented powers of i: parity argument over Z; table index bijection over any history. |
| C15 | Tables cover every lookup made by an expansion of the constructed order: lookups return `None` out of bounds; all loops proved in bounds for order>=1; order 0 refuted. |
| C16 | 2D multipole expansion approximates the potential with the geometric error bound: ln|1-w| Taylor remainder lemma proved from derivatives; summed over sources. |
| C17 | 2D multipole shift is exact: binomial theorem; coefficientwise equality. |
| C18 | 2D local shift is exact: loop invariant of the Horner-style recurrence; polynomial identity. |
| C19 | 2D local expansion from sources has the geometric error bound: remainder lemma. |
| C20 | 2D multipole-to-local conversion has a geometric error bound: terms regrouped by total degree, missing terms bounded by the binomial sum; holds for every table history. |
| C21 | Expansion force fields are the gradients of expansion potentials: `is_derive` along both axes for finite complex series. |
| C22 | Adding expansions is guarded and coefficientwise: guard model and linearity of evaluation. |
| C23 | Orthant index and child geometry agree: bit-level induction on the dimension; real arithmetic. |
| C24 | Adjacency test is exact on tree boxes: integer grid coordinates of a path; adjacency reduced to integer inequalities. |
| C25 | The root box contains every source: refuted by witness over R (and float); sufficient condition and exact condition proved. |
| C26 | Adaptive tree construction terminates exactly on separable data: fuelled level loop; non-termination: for all fuels; termination by shrinking boxes (archimedean); sources outside the box are replaced by the nearest points of the box, which have the same orthants. |
| C27 | Adaptive tree partitions the sources: invariant over levels, path characterisation of the tree. |
| C28 | Breadth-first traversal visits every node exactly once, level by level: queue model with fuel, proved to equal the level order. |
| C29 | Adaptive neighbour lists never trigger the too-close exception: the distance test is never true for non-adjacent same-level boxes. |
| C30 | Adaptive FMM lists: every source is accounted for exactly once: exact characterisation of the four lists after the traversal, then unique-level argument. |
| C31 | Adaptive lookup of the containing leaf: descent proved to reach a leaf; containment by C23. |
| C32 | Leaf box indices identify the containing leaf of a balanced tree: floor arithmetic over R. |
| C33 | Flat and Morton indices are bijections onto the leaf positions: base-2^h and bit interleaving bijections; 32/64-bit wrap modelled. |
| C34 | Balanced tree layout: array-based BFS construction with offsets; invariant; Morton order by induction on height. |
| C35 | Balanced tree distributes the sources correctly: bucket model; C32+C33+C34. |
| C36 | Balanced neighbour and interaction lists: as C30 with same-level lists only. |
| C37 | Balanced FMM: every source is accounted for exactly once: as C30. |
| C38 | End-to-end accuracy of the adaptive 2D potential: generic passes with the 2D kernel, C16-C20, C24, C30. |
| C39 | Requested accuracy eps is met: refuted by five sources and eps = 2^-13 (the conversion that dominates the error is bounded by exact rational arithmetic); proved instead: error at most (1+sqrt 2)/(p+1)*sqrt(eps*A). |
| C40 | Expansion order selection: real logarithm and ceiling. |
| C41 | Parallel passes are deterministic: parallel loop over arbitrary permutations of iterations with per-iteration footprints. |
| C42 | Batch evaluation equals pointwise evaluation, in input order: as C41. |
| C43 | Balanced tree height selection: real logarithm and ceiling. |
| C44 | Reading sources from a file: stream extraction model (failed extraction keeps the variable); refutation witness. |
| C45 | 3D force evaluation is defined at every point of the leaf: 3D force model with division by sin(theta) returning None at 0; refutation. |
| C46 | Packing and unpacking of particle arrays: list indexing arithmetic. |
| C47 | Adaptive 2D force accuracy: passes instantiated with the force bounds of the expansions; smoothing only changes the near field. |
| C48 | Order 0: `Abort` outcome of the assertion in the local expansion constructors, propagated through every schedule of the passes. |
| C49 | Balanced 2D tree: C35-C37 with the kernel bounds of C16-C20. |
| C50 | 3D orders above 42: the factorial argument of the coefficient table exceeds GSL's limit 170. |
| C51-C53 | 3D truncation errors: Legendre generating function and addition theorem proved from scratch (`SolidHarmonics`, `Zonal`, `NewtonSeries`), tail bounds. |
| C54, C55 | 3D translations: addition theorems of the solid harmonics; finite sums regrouped. |
| C56 | 3D table history: C13, C14 and the bounds of C15 for every lookup. |
| C57 | As C22. |
| C58, C59 | As C38 and C49 with the 3D kernel. |
| C60 | As C41. |
| C61 | As C15/C48: lookups in never-allocated tables. |
| C62, C63 | Derivatives of solid harmonics; gradient of the remainder bounded term by term. |
| C64, C65 | As C47; exact condition for a finite result (the point is off the vertical axes of the evaluated expansions). |
| C66 | Composition of C46, C38/C47/C58/C64 and C03/C07/C08. |
| C67 | Composition of C46 and C47. |
| C68 | Model of the file writers as lists of rows of typed fields; by the breadth-first order and the list theorems. |
| C69, C70 | Heap of blocks; release of an unallocated block is undefined; induction over the tree. |
| C71 | The evaluation functions take the current vector as an argument; containing leaf iff in the root box. |
| C72 | Index arithmetic of the coefficient tables. |
| C73 | As C26 and C27, the root being refined unconditionally. |
| C74 | C27, C28 and C31 reproved without any law of arithmetic (`AnyTree`, `AnyTheorems`), then instantiated with binary64. |
| C75 | C30 reproved from the symmetry of the adjacency test alone (`AnyLists`): the four lists for an arbitrary symmetric relation; symmetry of the test in binary64 from Flocq (halving keeps sign and finiteness, so `std::min` of two box lengths commutes). The norm routine is arbitrary. |
| C76 | Two orbits of a point pair under the box recursion, computed until a fixed point (box length 0) is reached, then induction; exact arithmetic by C26. |
| C77 | Execution by `vm_compute` for one norm routine, extended to all accurate ones by monotonicity of the check. |
| C78 | Every box recursion in binary64 is fixed from depth 2100 on (halving reaches 0 after 2099 steps, adding zero is idempotent); a split below that depth repeats forever, by the any-arithmetic argument. |
| C79 | Model of the sums with a rounding after every operation (`RoundedFields`); a calculus of relative intervals `a = b t, lo <= t <= hi`, the classical summation bound by induction, Bernoulli's inequality for the 53-bit corollary (`RoundedProofs`, `RoundedCases`). |
| C80 | Same calculus, component by component. |
| C81 | From the end-to-end bounds: `(sqrt 2/2)^p` is the square root of `2^-p`, `(sqrt 3/(4 - sqrt 3))^3 <= 1/2` (`AccuracyRule`). |
| C82 | `main` around an arbitrary solver function (`Integrator`); induction over the save times (`TrajectoryProofs`). |
| C83 | Entry k collects, in some order, its own partial sum and one term per later iteration (`hit_list`); summation bound for any order (`RoundedPairs`, `RoundedPairProofs`). |
| C84 | Refuted: 4 charges, two schedules, results 1 and 1 + 2^-52 (`RoundedPairCases`); two runs are close by C83. |
| C85 | Refuted by cancellation; for charges of one sign the sum of the absolute terms is the absolute value of the sum. |
| C86 | The construction over any arithmetic reduces to four facts about indices, adjacency and closeness (`AnyBalanced`); these follow from an error analysis of root box, box centres, adjacency test and leaf indices (`RoundedTree`, `RoundedTreeProofs`, `RoundedTreeTheorems`). |
| C87 | Refuted: the model over binary64 is run on two data sets (`RoundedTreeCases`); exact construction succeeds by C35. |
| C88 | The generic theorems on trees over any arithmetic (`AnyTree`, `AnyLists`) with the error analysis of C86, extended to adjacency of boxes of different depths and to the descent by orthants (`RoundedTreeProofs`, `RoundedAdaptive`). |
| C89 | Refuted: construction, look-up and direct sum over binary64 run on three sources (`FloatPotential`, `FloatLookup`); the exact look-up succeeds by C31. |
| C90 | Expansions over any complex arithmetic with bounded relative errors (`RoundedExpansion2D`, `RoundedComplexSpec`); an error calculus (`ApproxC`) bounds the coefficients of every expansion (`RoundedSeries`, `RoundedLocal`, `RoundedConvert`, `RoundedGood`), box by box through the passes, for any schedule (`AnyPasses`, `RoundedPasses`), with the geometry of the rounded boxes (`RoundedGeometry`). |
| C91 | The values of these expansions and of the rounded direct sums at the leaf, added up (`RoundedFmmEval`, `RoundedFmmTheorems`); the truncation error is that of the exact theorems, for the ratio 3/4. The textbook complex arithmetic satisfies the hypotheses (`TextbookComplex`, `TextbookProofs`). |
| C92 | `RaceSpec` defines when a loop is free of races (footprints per iteration, disjoint for writes; invariant set of states). Every step of the passes is shown to stay within its footprint, also when it fails (`RaceProofs`), given that the table has been grown before the loops; the levels of the tree keep the footprints apart. |
| C93 | As C91 for the derivative of the expansions: the error of the evaluation loop of the derivative (`RoundedLocal`, `RoundedForce`), the truncation error of the derivative of converted expansions (`RoundedConvert`: the binomial series again), both carried through the passes in the same invariant (`RoundedGood`, `RoundedPasses`). |
| C94 | The constructor and evaluation of the balanced tree over rounded arithmetic (`RoundedBalancedFmm`). The rounded tree is shown to be a complete tree whose boxes have the shape of the exact one up to small relative errors (`RoundedBalancedTree`); every list is counted on the integer grid of cells (`BalancedCounts`), every source is covered once, and the invariant of C91 is carried through the passes, which are generic in the tree (`AnyPasses`, `RoundedPasses`). |
| C95 | As C94 with the derivative of the expansions, as C93. |
| C96 | Cells of the integer grid are counted (`ListCounts`): boxes no smaller than a box that touch it are mapped one to one to the 3^d cells around it; the cells of an interaction list and these 3^d cells are disjoint among the 6^d cells around the parent. Totals by double counting, with X and W lists opposite and each near pair charged to its smaller leaf (`ListSizes`). |
| C97 | The rounded quotient of logarithms times ln of the base is within 1/2000 of the exact logarithm (`RoundedHeight`); the ceiling is compared through ln 1.001 > 1/2000. For the case 2^29: ln 2 to 18 digits from the area-tangent series by the mean value theorem (`Ln2`), Flocq's midpoint lemmas. |
| C98 | Composition of C97 with C90, C91, C94 (`RoundedApiProofs`); data ranges are monotone in the height. |
| C99 | Simulation: a double that is a multiple of 2^e and at most 2^E fits (`FloatFit`, by Flocq's correctness theorems for the primitive operations); every geometric function preserves fitting and commutes with taking the real value (`FloatGeometry`); so do the loops (`FloatBridge`, `FloatBridgeTrees`). `FloatSpec` is the vocabulary; `FloatNorm` the norm. |
| C100 | Transport of C88, C90 along C99 (`DoubleTheorems`). |
| C101 | The program with an arbitrary function for the results of `rand()` (`Minimal`); from C81 for the bound, C48 for the failure at order 0, C26 for the one that does not end. |
| C102 | Decimal text is rounding to 16 digits in radix 10, reading is rounding to 53 bits, both of Flocq (`Text`); relative error and monotonicity of both roundings; the exact round trip is false (witness 1 + 2^-52). |
| C103 | Strings (`Text`); decimal digits of the standard library, read back. |
| C104 | The functions of fields.hpp on primitive floats (`FloatFields`); bounds on the magnitudes and on the last bits of all intermediate results give the refinement to the model with rounded operations, hence C79 and C80. |
| C105 | From C104 for moderate data; two pairs of points computed in the kernel for the failures. |
| C106 | Every 3D operation with rounded steps (`RoundedExpansion3D`, `RoundedApi3`); norms of the coefficients by degree (Cauchy-Schwarz with Vandermonde weights, `HarmonicNorms` to `CoefBounds`), per-operation errors, the invariant of the parallel passes as in C34 with error-carrying expansions, geometry of the rounded boxes, evaluation. |
| C107 | The per-operation lemmas of C106 composed. |
| C108 | The coefficient transforms as convolutions with the solid harmonics of the shift, whose addition theorem makes shifting a group action (`ShiftGroup`). |
| C109 | `YlmTable` with rounded steps (`RoundedHarmonicTable`): the entries are those of the direction whose cosine was computed, up to counted roundings; that direction is close to the right one; harmonics move little with the direction (`Yr_move`). Failure: both cosines round to 1. |
| C110 | As C106 for the balanced tree: facts about the rounded boxes (`bfacts3`), geometry of the interaction and near lists, the passes of RoundedPasses3, evaluation of RoundedFmmEval3, computed order and height. |
| C111 | Model RoundedForce3D (each operation by a record `garith`). The computed angles belong to a point close to the given one (`point_facts`); entries of the derivative table (RoundedForceTable3, bound of the gradients of the solid harmonics in GradientBounds3), the loops (RoundedForceProofs3), the Cartesian basis; comparison with the exact force at that point by `dYr_frame`, `dM_frame`. Refutation in the cone by rounding of the cosine to 1; for the tree (RoundedForceApi3, RoundedForceTree3) from the centre of the leaf's local expansion. |
| C112 | Model FloatPairs (Coq's primitive floats). Every update is a multiple of a power of two of bounded size (`sized`), and the total weight of the updates of a run does not depend on the interleaving (`run_weights`), so no partial sum overflows or underflows; the results are those of the model with rounded operations (`energies_real`, `forces_real`), to which C83 applies. |
| C113 | Model FloatExpansion2D (Coq's primitive floats; complex product, quotient, logarithm and binomials arbitrary functions on doubles). A finite computed power is close to the true modulus (`power_modulus`), so a power beyond 2^1025 is not finite (`power_overflows`, `reciprocal_powers_overflow`, `quotients_overflow`); a non-finite coefficient stays non-finite through merging, conversion, shifting, addition and evaluation (FloatExpansionProofs). In the good range by bounds on the parts (FloatExpansionCases). |
| C114 | Model FloatCounts (Coq's primitive floats). The quotient of 2^(dh) by 2^d - 1 has remainder 1 < (2^d - 1)/2, so rounding to nearest does not cross an integer (`floor_quotient`). |
| C115 | Model FloatExpansion2D, notions FloatRangeSpec. Every coefficient with index i is at most 2^(C + i B) for multipole and 2^(D - i (b + 1) - i) for local expansions, with C, B, D growing linearly in the rounds; one lemma per operation bounds the computed parts by a count times a power of two (`upto`, FloatRange). |
| C116 | Model FloatExpansion2D, notions FloatCoefficientSpec (exact moments, coefficients, value of the expansion, direct sum). Forward error analysis with an absolute underflow term absorbed by the size of the unit; finiteness of the result gives finiteness of every operand backwards; induction over powers, sources and coefficients (FloatCoefficients, FloatMultipole); truncation error from the logarithmic remainder (FloatAccuracy); existence of a finite result from C115 (FloatAccuracyCases). |
| C117 | Model FloatExpansion2D, notions FloatForceSpec (derivative of the expansion, direct sum of forces). As C116: inverse powers from 1/z^2, terms k a_k / z^(k+1) and the subtracting loop by induction (FloatForceAccuracy); the square of z stays in range by C115's square_between; truncation from the finite geometric sum (FloatForceError); existence of a finite result from C115 (FloatForceCases). |

## What is modelled, what is not

| source | model | left out |
|---|---|---|
| vector.hpp | `Vec`, `Fields.vnorm`, `Spherical` | overflow and rounding, stream output |
| fields.hpp | `Fields`, `Schedule`; with rounding: `RoundedFields`, `RoundedPairs`; in doubles: `FloatFields`, `FloatPairs` | - |
| fmm_tables.hpp | `Tables`, `Tables3D`; with rounding: `RoundedHarmonicTable`, `RoundedForce3D` | GSL: `gsl_sf_choose`, `gsl_sf_fact` and the Legendre routines are their mathematical definitions (with the domain limits that matter: argument of the factorial at most 170, derivative routine for sin theta <> 0) |
| series_expansion.hpp, multipole_expansion.hpp, local_expansion.hpp | `Expansion2D`, `Expansion3D`, `Output` (printing); with rounding: `RoundedExpansion2D`, `RoundedExpansion3D`, `RoundedForce3D`; in doubles (plane): `FloatExpansion2D` | overflow and underflow, except in C113; formatting of numbers |
| abstract_orthtree.hpp, adaptive_orthtree.hpp | `Orthtree` (boxes, directions, adjacency, containment, data range, traversal) | - |
| adaptive_fmm_tree.hpp | `AdaptiveTree` (construction, lists, leaf lookup), `FmmPasses` (parallel passes, evaluation), `FmmTree2D`, `FmmTree3D`, `Output` (log files), `Lifetime` (allocation and release) | raw pointers are addresses |
| adaptive_point_orthtree.hpp | `PointTree`, `AdaptiveTree`, `Output`, `Lifetime` | - |
| balanced_orthtree.hpp, balanced_fmm_tree.hpp | `BalancedTree`, `BalancedFmm`, `Output`, `Lifetime`; with rounding: `RoundedBalancedFmm`, `RoundedBalancedApi3`; in doubles: `FloatCounts` | - |
| abstract_fmm_tree.hpp | `FmmPasses` (steps), `FmmApi` (order, batch evaluation) | - |
| fmm_general.hpp | `Tables3D` (signs), `Interfaces` (files) | tokens that convert in part; the decimal representation of numbers is in `Text` only |
| mathematica/*.cpp, examples/integrator.cpp | `Interfaces`, `Integrator` | the LibraryLink runtime; the GSL ODE driver is an arbitrary function; console output |
| debugging.hpp, examples/minimal.cpp | `Text`, `Minimal` | separators other than the default ones; console text of the example |
| test/* | not modelled | test/expansions.cpp includes `../direct.hpp` and test/point_orthtree.cpp includes `balanced_point_orthtree.hpp`, which do not exist in the repository |

Sources, points and boxes are exact real vectors, except in C74-C78, C84, C87, C89, C99, C100, C104, C105, C112, C113, C114, C115, C116, C117 (binary64, or its rounding) and C79-C83, C85, C86, C88, C90, C91, C93-C95, C97, C98, C106, C107, C109-C111 (any rounding with bounded relative error; overflow and underflow not modelled).  Consequences: results about comparisons (which box contains a point,
adjacency) hold for the real-number algorithm; floating point can differ on points whose distance to a box boundary is of the
order of the rounding error.  Termination results hold for the real-number algorithm; C76 and C77 show that termination (C26) and
the absence of the exception (C29) do not carry over to doubles, C74 and C75 that the partition and the coverage do.
For data in range C99 and C100 transport the theorems of the rounded model to doubles (tree structure, not expansions and potentials).
The double model evaluates every operation as written, rounded to nearest (no extended precision, no fused operations).

Memory model of the parallel loops: a step (one read or one read-modify-write of a node member) is atomic, loops are
arbitrary interleavings of their iterations.  This is sequential consistency; the loops have no data race by C92
(each member is written by one iteration and read by no other in the same region), so this is no restriction.

## Findings about the code

1. The bounding box is padded by scaling the bounds by 1+1e-5, which moves a bound towards the data (or past it) when the bounds
   have the wrong sign; sources can be outside the root box (C25), the adaptive construction then may not terminate (C26) and a balanced
   tree throws for every data set on one side of a coordinate plane (C35).
2. M2L in two dimensions drops one term and reads binomial coefficients that were never written (zeros, or the values left by
   an earlier, larger expansion); its result depends on the history of the process (C11, C12).
3. The requested accuracy is not guaranteed (C39), also because of 2.
4. Order 0 (eps at least the total charge) aborts as soon as there is more than one leaf (C48), in 3D reads unallocated tables (C15, C61).
5. 3D orders above 42 abort in GSL (C50).
6. 3D forces are not finite on the vertical axis through the centre of an evaluated expansion, in particular at box centres (C45, C64).
7. Coincident sources (more than the capacity) make the adaptive construction diverge (C26); balanced heights are undefined for fewer
   sources than the capacity over 2^d (C43).
8. `readSourcesFromFile` turns a blank or short line into a copy of the previous source; the files written by `sourceLocationsToFile`
   have no charges and cannot be read back (C44).
9. The far field ignores `force_smoothing_eps` (C47).
10. `getFlatIndex` wraps in 32 bits (C33); the comment of `getMortonIndex` is wrong about the bit order.
11. The integrator has undefined behaviour when the velocity or mass file is too long or too short (C46).
12. The tree classes have implicit copy constructors and owning raw pointers: copying a tree leads to a double free (C70).
13. An exception in the balanced constructor leaks the arrays and all buckets (C70).
14. The trees keep a reference to the caller's vector, used outside the root box (C71) and by the batch functions.
15. Printing a default-constructed expansion reads past the end of its coefficients (C72).
16. The rows of the log of the W lists lack the centre that all other list files have (C68).
17. In double arithmetic the adaptive construction can run for ever (until memory is exhausted) on distinct sources that exact
    arithmetic separates, for example (-1,-1), (2^-70,2^-70), (2^-69,2^-69) with capacity 1: the upper corner of the root box is
    rounded below the two small points, and the boxes shrink to length 0 without separating them (C76).
18. In double arithmetic the constructor can throw "Node too close to be part of the interaction list" although the boxes are
    separated in exact arithmetic: near the resolution limit the rounded centres violate the adjacency test's tolerance (C77).
19. The integrator does not notice that `logs/trajectory.dat` cannot be opened, and returns 0 after a failure of the solver (C82).
20. The results of the parallel direct sums depend on the schedule in the last bits, so runs are not reproducible (C84).
21. In doubles the balanced constructor can have undefined behaviour or throw for a source next to the lower or upper faces of the root box: the padding of the box is lost to rounding when the extents on the two sides of the origin differ by a factor of about 2^37 or more (C87).
22. In doubles the adaptive tree's look-up can miss the leaf of a source at the source's own position, because the leaf's bounds are recomputed with rounding errors (getContainingLeaf calls contains after the descent). evaluatePotential and evaluateForcefield then use the direct sum meant for points outside the tree, which does not leave the source out: the potential is infinite (C89).
23. In doubles the order can be one more than needed: for A / eps = 2^29 the rounded quotient of the logarithms exceeds 29 and the order is 30 (C97). Only the running time is affected.
24. Files are written with sixteen significant digits (`setprecision(digits10)` with `scientific`), one too few for doubles: 1 and 1 + 2^-52 are written alike, and sources that were distinct can coincide after storing and reading, so that the adaptive constructor with one source in a leaf does not end (C102).
25. In doubles the direct force of distinct points can be lost: below a distance of about 2^-538 the squared distance underflows and the safe force in the plane is 0 instead of huge; in space the cube underflows below about 2^-359 and the force is infinite or NaN, also in the safe variant (C105).
26. The table of spherical harmonics is computed from `std::cos(theta)` alone. Near the polar axis the cosine rounds to 1 and the entries with m <> 0 lose half of their digits or all of them: the direction (2^-27, 0, 1) gets the table of the axis, an error of at least 2^-29 for one of the two whatever the Legendre library does (C109). The force fields divide these entries by sin(theta).
27. In double precision the three-dimensional force fields fail not only on the vertical line through an expansion's centre (finding on C25) but at every point whose direction from the centre is within an angle of about 2^-28 of that line: the cosine rounds to 1, which `gsl_sf_legendre_deriv_alt_array_e` refuses (C111). A regular grid of sources and evaluation points aligned with the boxes meets this case.
28. The two-dimensional expansions are not scaled to the box size, so their powers overflow in double precision (C113): with order 20 when a source is 2^53 ≈ 10^16 length units from its box's centre (kilometres beyond a thousand light years), with order 32 when two interacting boxes are 2^-35 ≈ 3·10^-11 units apart (atoms in metres). All potentials and forces derived from such an expansion are infinite or NaN, without a diagnostic, while the direct sum is finite. The remedy is to scale positions by the box size.

## Trusted base

* The kernel of Coq 8.16.1 (including `vm_compute`, used to run the model over `Q` and over binary64, and its primitive floats and 63-bit integers), and the fidelity of the model as delimited above.
* Axioms, all from Coq's standard library, as listed by `Print Assumptions` under each property theorem:
  `ClassicalDedekindReals.sig_forall_dec`, `ClassicalDedekindReals.sig_not_dec` (real numbers),
  `FunctionalExtensionality.functional_extensionality_dep`, `Classical_Prop.classic`.
  C74-C78, C87, C89, C99, C100, C104 and C105 also list the standard library's primitive floats and integers and their specifications (`Coq.Floats.*`, `Coq.Numbers.Cyclic.Int63.*`).
  No axiom was added; Coquelicot and Flocq add none.

Property theorems by the axioms they use:

**Closed under the global context** (12): `C103_columns`, `C103_print`, `C103_stamps`, `C10_slots_distinct`, `C13_slots_distinct`, `C33_flat_index_bijective`, `C33_flat_index_wraps`, `C33_morton_index_bijective`, `C33_morton_index_throws`, `C46_vector_file`, `C68_sources_recoverable`, `C72_print_3D`.

**sig_forall_dec** (17): `C42_energies_pointwise`, `C44_blank_line_repeats`, `C44_incomplete_first_line`, `C44_latest_values`, `C44_one_source_per_line_partial`, `C44_one_source_per_line_refuted`, `C44_written_file_unreadable`, `C46_copy`, `C46_flatten`, `C46_initial_state`, `C46_initial_state_mismatch`, `C46_potentials`, `C46_round_trip`, `C46_unpack_points`, `C46_unpack_sources`, `C72_print_2D`, `C72_print_default_undefined`.

**functional_extensionality_dep, sig_forall_dec** (57): `C09_power_table`, `C101_square`, `C103_durations`, `C109_table_entries`, `C10_binomial_table`, `C12_l2l_history_independent`, `C12_merge_history_independent`, `C14_sign_functions`, `C17_multipole_coefficients`, `C17_multipole_shift_exact`, `C18_local_potential_is_polynomial`, `C18_local_shift_exact`, `C22_add_guarded`, `C23_children_displaced`, `C23_directions`, `C23_orthant_geometry`, `C24_adjacency_exact`, `C24_adjacency_exact_in_tree`, `C24_adjacency_relation`, `C25_root_box_contains_iff`, `C25_root_box_contains_partial`, `C25_root_box_contains_refuted`, `C25_root_box_finite`, `C26_distinct_sources_diverge`, `C26_outside_sources_diverge`, `C26_termination`, `C26_termination_in_box`, `C26_termination_straddling`, `C27_children`, `C27_partition`, `C27_space`, `C28_traversal`, `C31_containing_leaf`, `C32_indices_above`, `C32_indices_below`, `C32_indices_inside`, `C42_forces_pointwise`, `C46_derivative`, `C46_forces`, `C46_massless`, `C57_add3_guarded`, `C64_points_exist`, `C68_point_files`, `C69_adaptive_destructor`, `C69_point_destructor`, `C70_adaptive_copy_undefined`, `C70_point_copy_undefined`, `C73_points_partition`, `C73_points_space`, `C73_points_termination`, `C73_points_termination_straddling`, `C73_points_undefined`, `C82_lost_output`, `C82_missing_input`, `C82_trajectory_complete`, `C82_trajectory_written`, `C88_rounded_coverage`.

**functional_extensionality_dep, sig_forall_dec, sig_not_dec** (60): `C02_basis_combination`, `C02_basis_isometry`, `C02_basis_orthonormal`, `C05_safe_force`, `C06_defined_iff`, `C06_pair`, `C06_total_force_vanishes`, `C06_total_force_vanishes_whenever_defined`, `C08_forces_schedule_independent`, `C08_forces_whenever_defined`, `C13_alm_lookup`, `C14_sign_lookup`, `C29_interaction_separated`, `C29_lists_never_throw`, `C30_coverage`, `C30_near_list_exact`, `C30_source_coverage`, `C34_layout`, `C35_build_succeeds`, `C35_leaf_contents`, `C35_leaf_found`, `C35_one_sided_unusable`, `C35_source_found`, `C36_interaction_lists`, `C36_interaction_separated`, `C36_near_lists`, `C37_coverage`, `C50_order_above_limit`, `C50_order_limit`, `C68_adaptive_files`, `C68_balanced_files`, `C69_balanced_destructor`, `C70_balanced_copy_undefined`, `C70_exception_leaks`, `C80_force_error`, `C83_forces_error`, `C86_rounded_builds`, `C86_rounded_coverage`, `C86_rounded_grid`, `C86_rounded_interaction`, `C86_rounded_lookup`, `C86_rounded_near`, `C86_rounded_separated`, `C86_rounded_sources`, `C88_rounded_W`, `C88_rounded_X`, `C88_rounded_ends`, `C88_rounded_grid`, `C88_rounded_lookup`, `C88_rounded_near`, `C88_rounded_no_exception`, `C88_rounded_separated`, `C88_rounded_sources`, `C96_adaptive_boxes`, `C96_adaptive_conversions`, `C96_adaptive_lists`, `C96_adaptive_pairs`, `C96_adaptive_symmetry`, `C96_balanced_lists`, `C96_rounded_balanced_lists`.

**classic, functional_extensionality_dep, sig_forall_dec, sig_not_dec** (146): `C01_other_dimensions_throw`, `C01_polar_round_trip`, `C01_spherical_round_trip`, `C02_radial`, `C03_additive`, `C03_direct_potential`, `C03_homogeneous_in_charges`, `C03_linear_in_charges`, `C03_order_independent`, `C04_force_is_minus_gradient`, `C05_safe_potential`, `C07_energies_schedule_independent`, `C101_crowded`, `C101_prints`, `C101_small_charges`, `C102_exact_partial`, `C102_exact_refuted`, `C102_locations`, `C102_round_trip`, `C102_stored_sources_refuted`, `C102_vector`, `C106_given_order`, `C106_given_order_potential`, `C106_rounded_tree`, `C107_chain_rounded`, `C107_local_rounded`, `C107_multipole_rounded`, `C108_merge_in_steps`, `C108_merge_undone`, `C108_translations`, `C109_harmonics_partial`, `C109_harmonics_refuted`, `C109_tree`, `C110_balanced_tree`, `C110_given_height`, `C110_given_height_potential`, `C111_local_force_partial`, `C111_multipole_force_partial`, `C111_near_axis_refuted`, `C111_tree_near_axis_refuted`, `C11_m2l_coefficients_partial`, `C11_m2l_coefficients_refuted`, `C11_m2l_computed`, `C12_m2l_history_partial`, `C12_m2l_history_refuted`, `C15_lookups_in_bounds_partial`, `C15_order_zero_refuted`, `C16_multipole_error`, `C19_p2l_error`, `C20_m2l_error`, `C21_local_force_is_minus_gradient`, `C21_multipole_force_is_minus_gradient`, `C22_add_pointwise`, `C38_potential_accuracy`, `C38_usable`, `C39_requested_accuracy_partial`, `C39_requested_accuracy_refuted`, `C40_order_selection`, `C40_order_undefined`, `C41_deterministic`, `C41_schedules_agree`, `C42_energies_accurate`, `C43_height_selection`, `C43_height_undefined`, `C45_every_leaf_refuted`, `C45_expansions_refuted`, `C45_force_defined_everywhere_refuted`, `C46_short_charges`, `C47_force_accuracy`, `C47_force_accuracy_unsmoothed`, `C48_order_zero_unusable`, `C49_balanced_accuracy`, `C49_usable`, `C50_adaptive_order_limit`, `C50_balanced_order_limit`, `C51_multipole3_error`, `C52_p2l3_error`, `C53_m2l3_error`, `C54_multipole3_merge_exact`, `C54_multipole3_total`, `C55_local3_translation_exact`, `C56_history_independent`, `C57_add3_multipole_potential`, `C57_add3_pointwise`, `C58_potential3_accuracy`, `C58_usable`, `C59_balanced3_accuracy`, `C59_usable`, `C60_schedules3_agree`, `C61_order_zero3_unusable`, `C62_local3_force_is_minus_gradient`, `C62_multipole3_force_is_minus_gradient`, `C63_m2l3_force_error`, `C63_multipole3_force_error`, `C63_p2l3_force_error`, `C64_force3_accuracy`, `C64_usable`, `C65_balanced3_force`, `C65_usable`, `C66_energies2`, `C66_energies3`, `C66_forces2`, `C66_forces3`, `C66_potentials2`, `C66_potentials3`, `C67_integrator_derivative`, `C71_not_a_snapshot`, `C71_vector_referenced_2D`, `C71_vector_referenced_3D`, `C79_million_sources`, `C79_plane_potential_error`, `C79_space_potential_error`, `C81_plane_rule`, `C81_plane_rule_balanced`, `C81_space_rule`, `C83_plane_energies_error`, `C83_space_energies_error`, `C84_runs_close_partial`, `C84_schedule_dependent_refuted`, `C85_cancellation_refuted`, `C85_one_sign_partial`, `C90_rounded_construction`, `C91_rounded_lookup_ends`, `C91_rounded_potential`, `C91_rounded_potential_outside`, `C92_adaptive2_no_race`, `C92_adaptive3_no_race`, `C92_balanced2_no_race`, `C92_balanced3_no_race`, `C93_rounded_force`, `C93_rounded_force_outside`, `C93_rounded_smoothed_force`, `C94_balanced_construction`, `C94_balanced_potential`, `C95_balanced_force`, `C95_balanced_smoothed_force`, `C97_height`, `C97_height_off_by_one`, `C97_height_same`, `C97_height_undefined`, `C97_order`, `C97_order_off_by_one`, `C97_order_one_more`, `C97_order_undefined`, `C98_adaptive_constructor`, `C98_balanced_constructor`.

**abs, add, div, eqb, eqb, float, frshiftexp, int, land, leb, lor, lsl, lsr, ltb, mul, normfr_mantissa, of_uint63, opp, sub** (4): `C74_double_descent`, `C74_double_partition`, `C74_double_traversal`, `C74_double_tree`.

**abs, add, div, eqb, eqb, float, frshiftexp, int, land, leb, lor, lsl, lsr, ltb, mul, normfr_mantissa, of_uint63, opp, sqrt, sub** (2): `C77_double_no_throw_refuted`, `C89_double_infinite_refuted`.

**Prim2SF_SF2Prim, Prim2SF_valid, SF2Prim_Prim2SF, abs, add, div, eqb, eqb, float, frshiftexp, functional_extensionality_dep, int, land, ldshiftexp, leb, lor, lsl, lsr, ltb, mul, normfr_mantissa, of_uint63, opp, sig_forall_dec, sub** (3): `C105_space_refuted`, `C76_double_termination_refuted`, `C89_double_lost_source_refuted`.

**Prim2SF_SF2Prim, Prim2SF_valid, SF2Prim_Prim2SF, abs, add, div, eqb, eqb, float, frshiftexp, functional_extensionality_dep, int, land, ldshiftexp, leb, lor, lsl, lsr, ltb, mul, normfr_mantissa, of_uint63, opp, sig_forall_dec, sig_not_dec, sub** (3): `C105_plane_refuted`, `C87_double_exception_refuted`, `C87_double_undefined_refuted`.

**Prim2SF_SF2Prim, Prim2SF_valid, SF2Prim_Prim2SF, abs, add, classic, div, div_spec, eqb, eqb, eqb_spec, float, frshiftexp, functional_extensionality_dep, int, land, ldshiftexp, leb, lor, lsl, lsr, ltb, ltb_spec, mul, normfr_mantissa, of_uint63, opp, sig_forall_dec, sig_not_dec, sub** (1): `C75_double_coverage`.

**Prim2SF_SF2Prim, Prim2SF_valid, SF2Prim_Prim2SF, abs, add, add_spec, classic, div, div_spec, eqb, eqb, eqb_spec, float, frshiftexp, functional_extensionality_dep, int, land, ldshiftexp, leb, leb_spec, lor, lsl, lsr, ltb, ltb_spec, mul, mul_spec, normfr_mantissa, of_uint63, opp, sig_forall_dec, sig_not_dec, sub** (2): `C78_double_decided`, `C78_double_height`.

**Prim2SF_SF2Prim, Prim2SF_valid, SF2Prim_Prim2SF, abs, abs_spec, add, add_spec, classic, div, div_spec, eqb, eqb, eqb_spec, float, frshiftexp, functional_extensionality_dep, int, land, ldshiftexp, lor, lsl, lsr, ltb, mul, mul_spec, normfr_mantissa, of_uint63, opp, opp_spec, sig_forall_dec, sig_not_dec, sub, sub, sub_spec** (3): `C113_local_overflow`, `C113_multipole_overflow`, `C113_small_units_refuted`.

**Prim2SF_SF2Prim, Prim2SF_valid, SF2Prim_Prim2SF, abs, abs_spec, add, add_spec, classic, div, div_spec, eqb, eqb, eqb_correct, eqb_refl, eqb_spec, float, frshiftexp, functional_extensionality_dep, int, land, ldshiftexp, leb, leb_spec, lor, lor_spec, lsl, lsl_spec, lsr, lsr_spec, ltb, ltb, ltb_spec, normfr_mantissa, of_to_Z, of_uint63, of_uint63_spec, opp, opp_spec, sig_forall_dec, sig_not_dec, sub, sub, sub_spec, sub_spec** (1): `C114_counts`.

**Prim2SF_SF2Prim, Prim2SF_valid, SF2Prim_Prim2SF, abs, abs_spec, add, add, add_spec, add_spec, classic, div, div_spec, eqb, eqb, eqb_correct, eqb_refl, eqb_spec, float, frshiftexp, functional_extensionality_dep, int, land, ldshiftexp, leb, leb, leb_spec, lor, lor_spec, lsl, lsl_spec, lsr, lsr_spec, ltb, ltb, ltb_spec, mul, mul_spec, normfr_mantissa, of_to_Z, of_uint63, of_uint63_spec, opp, opp_spec, sig_forall_dec, sig_not_dec, sub, sub_spec** (8): `C104_force`, `C104_million_sources`, `C104_plane_potential`, `C104_space_potential`, `C105_single_force_partial`, `C112_forces`, `C112_plane_energies`, `C112_space_energies`.

**Prim2SF_SF2Prim, Prim2SF_valid, SF2Prim_Prim2SF, abs, abs_spec, add, add, add_spec, add_spec, classic, div, div_spec, eqb, eqb, eqb_correct, eqb_refl, eqb_spec, float, frshiftexp, functional_extensionality_dep, int, land, ldshiftexp, leb, leb_spec, lor, lor_spec, lsl, lsl_spec, lsr, lsr_spec, ltb, ltb, ltb_spec, mul, mul_spec, normfr_mantissa, of_to_Z, of_uint63, of_uint63_spec, opp, opp_spec, sig_forall_dec, sig_not_dec, sub, sub, sub_spec, sub_spec** (8): `C113_coefficients_partial`, `C115_local`, `C115_multipole`, `C116_coefficients`, `C116_direct_sum`, `C116_expansion`, `C117_direct_sum`, `C117_expansion`.

**Prim2SF_SF2Prim, Prim2SF_valid, SF2Prim_Prim2SF, abs, abs_spec, add, add, add_spec, add_spec, classic, div, div_spec, eqb, eqb, eqb_correct, eqb_refl, eqb_spec, float, frshiftexp, functional_extensionality_dep, int, land, ldshiftexp, leb, leb, leb_spec, leb_spec, lor, lor_spec, lsl, lsl_spec, lsr, lsr_spec, ltb, ltb, ltb_spec, ltb_spec, mul, mul_spec, normfr_mantissa, of_to_Z, of_uint63, of_uint63_spec, opp, opp_spec, sig_forall_dec, sig_not_dec, sub, sub_spec** (15): `C100_adaptive_coverage`, `C100_adaptive_ends`, `C100_adaptive_lookup`, `C100_adaptive_no_exception`, `C100_adaptive_sources`, `C100_balanced_builds`, `C100_balanced_coverage`, `C100_balanced_lookup`, `C100_balanced_separated`, `C100_balanced_sources`, `C99_adaptive_lists_same`, `C99_adaptive_lookup_same`, `C99_adaptive_same`, `C99_balanced_lookup_same`, `C99_balanced_same`.

**Prim2SF_SF2Prim, Prim2SF_valid, SF2Prim_Prim2SF, abs, abs_spec, add, add, add_spec, add_spec, classic, div, div_spec, eqb, eqb, eqb_correct, eqb_refl, eqb_spec, float, frshiftexp, functional_extensionality_dep, int, land, ldshiftexp, leb, leb, leb_spec, lor, lor_spec, lsl, lsl_spec, lsr, lsr_spec, ltb, ltb, ltb_spec, mul, mul_spec, normfr_mantissa, of_to_Z, of_uint63, of_uint63_spec, opp, opp_spec, sig_forall_dec, sig_not_dec, sub, sub, sub_spec, sub_spec** (1): `C113_large_units_refuted`.
