{"id": "C01", "title": "Polar/spherical conversion round-trips", "statement": "For every vector v of dimension 2 or 3, v.toSpherical().toCartesian() == v in exact arithmetic; the radius returned is the Euclidean norm, the polar angle lies in [0,pi] and the azimuth in [-pi,pi].", "quantifier": "all 2- and 3-dimensional real vectors, including zero and vectors on the axes", "why_tests_cant": "atan2 has branch cuts and axis cases; a test samples finitely many directions.", "anchors": ["fmm/vector.hpp: Vector_::toSpherical, toCartesian, norm"]}
{"id": "C02", "title": "Spherical-basis to Cartesian conversion is the documented rotation", "statement": "toCartesianBasis(theta,phi) maps components (v_r,v_theta,v_phi) to v_r*rhat+v_theta*thetahat+v_phi*phihat for the documented unit vectors, preserves dot products, and sends (r,0,0) at the angles of a point to that point.", "quantifier": "all component triples and all angles", "why_tests_cant": "infinitely many angles", "anchors": ["fmm/vector.hpp: Vector_::toCartesianBasis"]}
{"id": "C03", "title": "Direct potential is a superposition with the documented sign convention", "statement": "potential(sources,x) is the sum over the sources of q*ln r (2D) or -q/r (3D) for the gravitational field and the negation for the Coulomb field; it is additive over concatenation of source lists, independent of their order, and linear in the charges.", "quantifier": "all source lists, charges, evaluation points, both dimensions, both field types", "why_tests_cant": "holds for every list, not samples", "anchors": ["fmm/fields.hpp: potential"]}
{"id": "C04", "title": "Force field is minus the gradient of the potential", "statement": "With zero smoothing, each Cartesian component of forcefield(sources,x) equals minus the partial derivative of potential(sources,.) at x, in 2D and 3D, for both field types, at every x that is not a source position.", "quantifier": "all source lists and all non-source points", "why_tests_cant": "a derivative identity over a continuum", "anchors": ["fmm/fields.hpp: forcefield, potential"]}
{"id": "C05", "title": "Safe evaluation skips exactly the coincident sources", "statement": "With safe=true a source at the evaluation point contributes zero and every other source contributes its full term, so the result is always finite; with safe=false (and zero smoothing for the force) the result is finite exactly if no source coincides with the evaluation point.", "quantifier": "all source lists and evaluation points, including coincidences", "why_tests_cant": "every coincidence pattern", "anchors": ["fmm/fields.hpp: potential, forcefield (safe template flag)"]}
{"id": "C06", "title": "Newton's third law for the direct force sum", "statement": "particleForces(sources) sums to the zero vector, for every smoothing eps and field type, whenever it is defined.", "quantifier": "all source lists, charges and smoothing values", "why_tests_cant": "every N", "anchors": ["fmm/fields.hpp: particleForces"]}
{"id": "C07", "title": "particlePotentialEnergies is schedule independent and correct", "statement": "For every OpenMP schedule, i.e. every interleaving of the atomic additions of all iterations, entry i of the result equals q_i times the sum over j != i of the potential of source j at x_i (exact arithmetic), provided no two sources coincide.", "quantifier": "all source lists without coincident sources; all interleavings of the atomic updates", "why_tests_cant": "the number of interleavings is exponential and not controllable from a test", "anchors": ["fmm/fields.hpp: particlePotentialEnergies"]}
{"id": "C08", "title": "particleForces is schedule independent and correct", "statement": "For every interleaving of the atomic component updates, entry i of the result equals q_i times the sum over j != i of the force field of source j at x_i.", "quantifier": "all source lists without coincident sources; all interleavings", "why_tests_cant": "interleavings", "anchors": ["fmm/fields.hpp: particleForces"]}
{"id": "C09", "title": "Power table", "statement": "PowTable(x,nmax)(n) == x^n for every n <= nmax, and the lookup is in bounds.", "quantifier": "all bases, all nmax, all n<=nmax", "why_tests_cant": "every size", "anchors": ["fmm/fmm_tables.hpp: PowTable"]}
{"id": "C10", "title": "Binomial lookups within the refreshed order are Pascal's triangle after any history", "statement": "After any sequence of expansion constructions (each of which may grow the shared table), looking up (n,k) with k<=n<=the largest order requested so far (at least 1) returns C(n,k); distinct (n,k) never share a slot and every slot is in bounds.", "quantifier": "all histories of orders, all n,k", "why_tests_cant": "histories are unbounded", "anchors": ["fmm/fmm_tables.hpp: BinomialTable"]}
{"id": "C11", "title": "2D multipole-to-local conversion computes the documented coefficients", "statement": "LocalExpansion<2>(center, multipole) has coefficients b_0 and b_l of formulas (4.18)/(4.19) cited in the code, each summed over all k=1..order. (Expected refutable: the inner loop stops at order-1 and the binomial table is only filled up to n=order although n=l+k-1 reaches 2*order-2.)", "quantifier": "all orders and coefficients", "why_tests_cant": "quantifies over all orders/coefficients", "anchors": ["fmm/local_expansion.hpp: LocalExpansion<2>::multipoleToLocal", "fmm/fmm_tables.hpp: BinomialTable::refresh"]}
{"id": "C12", "title": "Expansion results do not depend on unrelated earlier constructions", "statement": "The outcome of any 2D translation operation depends only on its arguments, not on which other expansions were constructed earlier in the process. (True of shift; expected refutable for multipole-to-local because of the shared, partially filled binomial table.)", "quantifier": "all histories of constructions", "why_tests_cant": "history-dependent", "anchors": ["fmm/series_expansion.hpp: SeriesExpansion<2>::binomial_table", "fmm/local_expansion.hpp: LocalExpansion<2>::multipoleToLocal"]}
{"id": "C13", "title": "A_n^m lookups are correct after any history", "statement": "After any sequence of 3D expansion constructions whose largest order is p>=1, looking up (l,m) with |m|<=l<=2p returns (-1)^l/sqrt((l-m)!(l+m)!), in bounds and without slot collisions.", "quantifier": "all histories, all l,m", "why_tests_cant": "unbounded histories", "anchors": ["fmm/fmm_tables.hpp: AlmTable", "fmm/fmm_general.hpp: A_coeff"]}
{"id": "C14", "title": "Sign functions are total and equal the documented powers of i", "statement": "sign_fun1/2/3(k,m) never throw and equal i^(|k|-|m|-|k-m|), i^(|k-m|-|k|-|m|), i^(|m|-|m-k|-|k|); table lookups with |k|,|m| <= order agree with the functions after any history.", "quantifier": "all integers k,m and all table histories", "why_tests_cant": "all integers", "anchors": ["fmm/fmm_general.hpp: sign_fun1, sign_fun2, sign_fun3", "fmm/fmm_tables.hpp: SignTable"]}
{"id": "C15", "title": "Tables cover every lookup made by an expansion of the constructed order", "statement": "Once an expansion of order p exists, every table lookup made by any translation of that expansion is in bounds. (Expected refutable for order 0, where the 3D tables are never allocated.)", "quantifier": "all orders p, all index tuples reached by the loops", "why_tests_cant": "every order", "anchors": ["fmm/fmm_tables.hpp: AlmTable, SignTable, BinomialTable", "fmm/series_expansion.hpp: SeriesExpansion constructors"]}
{"id": "C16", "title": "2D multipole expansion approximates the potential with the geometric error bound", "statement": "For sources within distance r of the center and |x-center| > r, |MultipoleExpansion<2>(center,p,sources).evaluatePotential(x) - sum q_i ln|x-x_i|| <= A*c^(p+1)/((p+1)(1-c)), c=r/|x-center|, A=sum|q_i|.", "quantifier": "all source sets, orders and far points", "why_tests_cant": "an analytic bound over a continuum", "anchors": ["fmm/multipole_expansion.hpp: MultipoleExpansion<2>"]}
{"id": "C17", "title": "2D multipole shift is exact", "statement": "Shifting a multipole expansion built from sources to a new center gives, coefficient by coefficient, the expansion built from the same sources at the new center; merging several expansions gives the expansion of the concatenated sources.", "quantifier": "all source sets, centers, orders", "why_tests_cant": "all orders", "anchors": ["fmm/multipole_expansion.hpp: MultipoleExpansion<2>::shift and merging constructor"]}
{"id": "C18", "title": "2D local shift is exact", "statement": "Re-centering a local expansion leaves its potential and force unchanged at every evaluation point.", "quantifier": "all coefficients, centers, points", "why_tests_cant": "all orders/points", "anchors": ["fmm/local_expansion.hpp: LocalExpansion<2>::shift"]}
{"id": "C19", "title": "2D local expansion from sources has the geometric error bound", "statement": "For sources at distance >= R from the center and |x-center| <= r < R the potential error is at most A*c^(p+1)/((p+1)(1-c)), c=r/R.", "quantifier": "all source sets, orders, near points", "why_tests_cant": "analytic bound", "anchors": ["fmm/local_expansion.hpp: LocalExpansion<2>(center,order,sources)"]}
{"id": "C20", "title": "2D multipole-to-local conversion has a geometric error bound", "statement": "For sources within r1 of the multipole center, evaluation points within r2 of the local center and distance D > r1+r2 of the centers, the potential error of the converted expansion as the code computes it is at most A*c^(p+1)/((p+1)(1-c)) with c=(r1+r2)/D, whatever the table history.", "quantifier": "all source sets, orders >= 1, points, table histories", "why_tests_cant": "analytic bound over a continuum and all histories", "anchors": ["fmm/local_expansion.hpp: LocalExpansion<2>::multipoleToLocal"]}
{"id": "C21", "title": "Expansion force fields are the gradients of expansion potentials", "statement": "In 2D, evaluateForcefield of a multipole or local expansion is minus the gradient of its evaluatePotential at every admissible point.", "quantifier": "all coefficients and points", "why_tests_cant": "derivative identity", "anchors": ["fmm/multipole_expansion.hpp", "fmm/local_expansion.hpp: evaluateForcefield"]}
{"id": "C22", "title": "Adding expansions is guarded and coefficientwise", "statement": "operator+= throws exactly if sizes or centers differ, leaving the left operand untouched, and otherwise adds coefficientwise so that evaluated potentials add.", "quantifier": "all pairs of expansions", "why_tests_cant": "all pairs", "anchors": ["fmm/series_expansion.hpp: SeriesExpansion::operator+="]}
{"id": "C23", "title": "Orthant index and child geometry agree", "statement": "For a point inside a box the child box selected by getOrthant contains the point; the 2^d child boxes have half the length, lie inside the parent, cover it and have disjoint interiors; in every dimension the child directions are exactly the 2^d sign vectors in orthant-index order.", "quantifier": "all d, all boxes, all points including those on boundaries", "why_tests_cant": "boundary points form a continuum", "anchors": ["fmm/adaptive_orthtree.hpp: getOrthant", "fmm/abstract_orthtree.hpp: getChildCenterDirections, contains"]}
{"id": "C24", "title": "Adjacency test is exact on tree boxes", "statement": "For any two boxes of one tree (any depths), adjacent() returns true exactly if the closed boxes share a point; it is symmetric, reflexive, and inherited by ancestors.", "quantifier": "all pairs of boxes at all depths in all dimensions", "why_tests_cant": "unbounded depth", "anchors": ["fmm/abstract_orthtree.hpp: BaseNode::adjacent"]}
{"id": "C25", "title": "The root box contains every source", "statement": "After construction each source position lies in the root box. (Expected refutable: the padding multiplies bounds by 1+1e-5, which moves the box away from sources when bounds do not straddle 0.) It does hold when in each coordinate the data straddle zero. Exactly: it holds iff in each coordinate extent + 1e-5 |min + max| <= (1 + 1e-5) times the largest extent.", "quantifier": "all nonempty source sets", "why_tests_cant": "all inputs", "anchors": ["fmm/abstract_fmm_tree.hpp: getDataRange", "fmm/abstract_orthtree.hpp: getDataRange", "fmm/balanced_fmm_tree.hpp: constructor", "fmm/adaptive_fmm_tree.hpp: constructor"]}
{"id": "C26", "title": "Adaptive tree construction terminates exactly on separable data", "statement": "Construction terminates iff no point of the root box is the nearest one to more than max_sources_per_leaf sources. If the sources lie in the root box, this means that no position is shared by more than max_sources_per_leaf sources; sources outside the box behave like the nearest points of the box, and even pairwise distinct ones can make it run forever.", "quantifier": "all source lists and capacities", "why_tests_cant": "non-termination cannot be observed by a test", "anchors": ["fmm/adaptive_fmm_tree.hpp: buildTree", "fmm/adaptive_point_orthtree.hpp: buildTree"]}
{"id": "C27", "title": "Adaptive tree partitions the sources", "statement": "When construction returns, every source is in exactly one leaf, namely the one reached by orthant descent; each leaf of a tree with more than one node holds at most max_sources_per_leaf sources, every refined non-root box holds more; and a box is present iff all its proper ancestors are refined.", "quantifier": "all source lists and capacities", "why_tests_cant": "all inputs, unbounded depth", "anchors": ["fmm/adaptive_fmm_tree.hpp: buildTree, refineOrthant", "fmm/adaptive_point_orthtree.hpp"]}
{"id": "C28", "title": "Breadth-first traversal visits every node exactly once, level by level", "statement": "traverseBFSCore applies the callback to each node of the tree exactly once, parents before children, in nondecreasing depth.", "quantifier": "all trees", "why_tests_cant": "all tree shapes", "anchors": ["fmm/abstract_orthtree.hpp: traverseBFSCore"]}
{"id": "C29", "title": "Adaptive neighbour lists never trigger the too-close exception", "statement": "Construction of an adaptive tree never throws 'Node too close to be part of the interaction list' (exact arithmetic).", "quantifier": "all trees in all dimensions d>=1", "why_tests_cant": "all trees", "anchors": ["fmm/adaptive_fmm_tree.hpp: computeNodeNeighbourhood"]}
{"id": "C30", "title": "Adaptive FMM lists: every source is accounted for exactly once", "statement": "For every leaf L the near-neighbour leaves, the subtrees of its W list, and the interaction-list subtrees and X-list leaves of L and of all its ancestors together contain each leaf of the tree exactly once.", "quantifier": "all adaptive trees, all leaves, any dimension", "why_tests_cant": "all tree shapes of any depth", "anchors": ["fmm/adaptive_fmm_tree.hpp: computeNodeNeighbourhood, constructLocalExpansion, evaluatePotential"]}
{"id": "C31", "title": "Adaptive lookup of the containing leaf", "statement": "evaluatePotential/evaluateForcefield locate, for a point in the root box, the unique leaf reached by orthant descent and that leaf contains the point; for points outside the root box they fall back to the direct sum.", "quantifier": "all trees and points", "why_tests_cant": "continuum of points", "anchors": ["fmm/adaptive_fmm_tree.hpp: getContainingLeaf"]}
{"id": "C32", "title": "Leaf box indices identify the containing leaf of a balanced tree", "statement": "getLeafBoxIndices(x) returns, for x in the half-open root box, the indices of the unique leaf box containing x; if the first coordinate of x outside the box is at or beyond the upper boundary (and nearer than 2^32 leaf sides) it throws; if that coordinate is below the lower boundary or further away the call is undefined.", "quantifier": "all trees, heights and points", "why_tests_cant": "continuum of points", "anchors": ["fmm/balanced_orthtree.hpp: getLeafBoxIndices"]}
{"id": "C33", "title": "Flat and Morton indices are bijections onto the leaf positions", "statement": "For height h with d*h<=32 (flat index) resp. h<64/d (Morton index) getFlatIndex and getMortonIndex map the index tuples bijectively onto 0..2^(d*h)-1; Morton bit i*d+j is bit i of coordinate d-1-j; getMortonIndex throws exactly if h >= 64/d. Beyond 32 bits flat indices collide.", "quantifier": "all heights, all tuples, all d>=1", "why_tests_cant": "exponentially many tuples", "anchors": ["fmm/balanced_orthtree.hpp: getFlatIndex, getMortonIndex"]}
{"id": "C34", "title": "Balanced tree layout", "statement": "A balanced tree of height h>=1 has (2^(dh)-1)/(2^d-1) inner nodes and 2^(dh) leaves, level k of the inner nodes is stored contiguously at offset (2^(dk)-1)/(2^d-1), and leaf number i is exactly the leaf whose Morton index is i.", "quantifier": "all heights and d", "why_tests_cant": "all heights", "anchors": ["fmm/balanced_fmm_tree.hpp: constructor, expandNode"]}
{"id": "C35", "title": "Balanced tree distributes the sources correctly", "statement": "If all sources are inside the half-open root box, every leaf receives exactly the sources lying in its box, in input order, and each source is found in the leaf that evaluatePotential looks up for its position.", "quantifier": "all source lists and heights", "why_tests_cant": "all inputs", "anchors": ["fmm/balanced_fmm_tree.hpp: distributePointSources"]}
{"id": "C36", "title": "Balanced neighbour and interaction lists", "statement": "For every node the near-neighbour list is exactly the set of adjacent nodes of the same depth, the interaction list is exactly the set of non-adjacent children of the parent's neighbours, without duplicates, and the too-close exception is never thrown.", "quantifier": "all heights, nodes, d", "why_tests_cant": "all sizes", "anchors": ["fmm/balanced_fmm_tree.hpp: computeNodeNeighbourhood"]}
{"id": "C37", "title": "Balanced FMM: every source is accounted for exactly once", "statement": "For every leaf, its near neighbours and the interaction lists of it and its ancestors together contain every leaf exactly once.", "quantifier": "all heights and leaves", "why_tests_cant": "all sizes", "anchors": ["fmm/balanced_fmm_tree.hpp"]}
{"id": "C38", "title": "End-to-end accuracy of the adaptive 2D potential", "statement": "For sources in the root box and an evaluation point x in the root box, AdaptiveFmmTree<2>::evaluatePotential(x) differs from the direct sum over the sources not at x by at most A*c^(p+1)/((p+1)(1-c)), c=sqrt(2)/2, p the expansion order >=1, for both field types.", "quantifier": "all source sets, capacities, orders, points", "why_tests_cant": "analytic bound for every tree", "anchors": ["fmm/adaptive_fmm_tree.hpp: AdaptiveFmmTree, evaluatePotential"]}
{"id": "C39", "title": "Requested accuracy eps is met", "statement": "The potential returned by the tree differs from the direct sum by at most the requested eps. (Expected refutable: the order is chosen from ratio 1/2 while well-separated boxes only guarantee a larger ratio, and the conversion drops terms.)", "quantifier": "all source sets, eps, points", "why_tests_cant": "worst case over a continuum", "anchors": ["fmm/abstract_fmm_tree.hpp: constructor (order)"]}
{"id": "C40", "title": "Expansion order selection", "statement": "getOrder() is the least natural p with A*2^-p <= eps (A=sum|q_i|) whenever A > eps/2; for A <= eps/2 (in particular no charge at all) the conversion to unsigned is undefined.", "quantifier": "all charges and eps>0", "why_tests_cant": "all reals", "anchors": ["fmm/abstract_fmm_tree.hpp: constructor"]}
{"id": "C41", "title": "Parallel passes are deterministic", "statement": "The upward and downward passes give the same expansions for every order in which the iterations of each parallel loop (including the two loops joined by nowait) take effect, and no shared lookup table is grown inside a parallel region.", "quantifier": "all trees, all schedules", "why_tests_cant": "schedules", "anchors": ["fmm/adaptive_fmm_tree.hpp: constructor", "fmm/balanced_fmm_tree.hpp: constructor"]}
{"id": "C42", "title": "Batch evaluation equals pointwise evaluation, in input order", "statement": "evaluateParticlePotentialEnergies()[i] == q_i*evaluatePotential(x_i) and evaluateParticleForces()[i] == q_i*evaluateForcefield(x_i), for every schedule; the source vector is not reordered.", "quantifier": "all trees, schedules", "why_tests_cant": "schedules", "anchors": ["fmm/abstract_fmm_tree.hpp: evaluateParticlePotentialEnergies, evaluateParticleForces"]}
{"id": "C43", "title": "Balanced tree height selection", "statement": "The height is the least h with sources_per_cell*2^(dh) >= number of sources when that ratio exceeds 2^-d; otherwise (very few sources for the capacity) the conversion of a negative number to size_t is undefined.", "quantifier": "all source counts and capacities", "why_tests_cant": "all inputs", "anchors": ["fmm/balanced_fmm_tree.hpp: constructor"]}
{"id": "C44", "title": "Reading sources from a file", "statement": "readSourcesFromFile returns exactly one source per line with the coordinates and charge of that line. (Expected refutable: a blank or short line silently repeats values of the previous line.)", "quantifier": "all files", "why_tests_cant": "all files", "anchors": ["fmm/fmm_general.hpp: readSourcesFromFile"]}
{"id": "C45", "title": "3D force evaluation is defined at every point of the leaf", "statement": "evaluateForcefield returns a finite vector at every non-source point. (Expected refutable in 3D: points on the vertical axis through the expansion center divide by sin(theta)=0.)", "quantifier": "all points", "why_tests_cant": "measure-zero set missed by random tests", "anchors": ["fmm/local_expansion.hpp: LocalExpansion<3>::evaluateForcefield", "fmm/multipole_expansion.hpp: MultipoleExpansion<3>::evaluateForcefield"]}
{"id": "C46", "title": "Packing and unpacking of particle arrays", "statement": "The flat-array interfaces (Mathematica wrapper and integrator) read source i from entries d*i..d*i+d-1, write result i to the same positions, and unpack(pack(sources)) == sources; the integrator's derivative is (velocity, force/mass).", "quantifier": "all N and arrays", "why_tests_cant": "all sizes", "anchors": ["fmm/mathematica/MathematicaFMM.cpp", "fmm/examples/integrator.cpp: arrayToSources, sourcesToArray, derivative_func"]}
{"id": "C47", "title": "End-to-end accuracy of the adaptive 2D force field", "statement": "For sources in the root box and x in the root box, every component of AdaptiveFmmTree<2>::evaluateForcefield(x) differs from the force of the sources not at x by at most A*c^p/((2-sqrt 2)*s), c=sqrt(2)/2, p the order >=1, s the side of the smallest leaf boxes, where the sources in adjacent leaves are smoothed by force_smoothing_eps and the others are not; outside the root box it is exactly the direct force.", "quantifier": "all source sets, capacities, orders, smoothing parameters, points, schedules, both field types", "why_tests_cant": "the bound has to hold for every configuration and point, a test samples a few random ones", "anchors": ["fmm/adaptive_fmm_tree.hpp: evaluateForcefield", "fmm/local_expansion.hpp: evaluateForcefield", "fmm/multipole_expansion.hpp: evaluateForcefield"]}
{"id": "C48", "title": "Order zero cannot be used with more than one leaf", "statement": "If eps/2 < A <= eps the selected order is 0; with more sources than the capacity of a leaf the 2D constructor then never returns an object, whatever the schedule.", "quantifier": "all source sets, eps, capacities, schedules", "why_tests_cant": "tests use eps far below the total charge; the failure is a property of a whole range of eps for every source set", "anchors": ["fmm/abstract_fmm_tree.hpp: AbstractFmmTree", "fmm/local_expansion.hpp: LocalExpansion"]}
{"id": "C49", "title": "Accuracy and determinism of the balanced 2D tree", "statement": "If the sources lie in the half-open root box and the order is at least 1, constructing a balanced 2D tree succeeds with the same object under every schedule of its parallel loops, its height is the selected one, and the potential (force) at every point of the half-open root box differs from the direct sum over the sources not at that point by at most A c^(p+1)/((p+1)(1-c)) with c = sqrt 2/2 (A c^p/((2-sqrt 2) leaf side) per component, far sources unsmoothed); exactly the direct sum when there is one leaf.", "quantifier": "all source lists, capacities, requested accuracies, evaluation points, schedules and histories of previously built expansions", "why_tests_cant": "The error bound ranges over all inputs in a continuum and all thread interleavings; tests sample a few random clouds with one scheduler.", "anchors": ["fmm/balanced_fmm_tree.hpp: BalancedFmmTree constructor, evaluatePotential, evaluateForcefield", "fmm/abstract_fmm_tree.hpp: AbstractFmmTree constructor, localToLocal, multipoleToLocal"]}
{"id": "C50", "title": "Orders above 42 abort in three dimensions", "statement": "Creating a 3D expansion (or tree) of order at most 42 builds its tables; the first one with a larger order terminates the program, because the table needs factorials up to 4*order and the factorial routine aborts above 170. A requested accuracy that selects such an order therefore aborts both 3D trees for every source set and schedule.", "quantifier": "all orders, all histories of constructed expansions, all source sets, accuracies, schedules", "why_tests_cant": "a threshold property over all histories and inputs; tests use moderate accuracies", "anchors": ["fmm/fmm_tables.hpp: AlmTable::refresh", "fmm/fmm_general.hpp: A_coeff", "fmm/abstract_fmm_tree.hpp: AbstractFmmTree"]}
{"id": "C51", "title": "3D multipole expansion error bound", "statement": "For sources within rad of the centre and x at distance at least r > rad, MultipoleExpansion<3>(center,p,sources).evaluatePotential(x) differs from the direct sum of -q/r by at most A*(rad/r)^(p+1)/(r-rad).", "quantifier": "all source lists, centres, orders, points", "why_tests_cant": "continuum of inputs and all orders", "anchors": ["fmm/multipole_expansion.hpp: MultipoleExpansion<Vector,Source,3>", "fmm/series_expansion.hpp: SeriesExpansion<Vector,Source,3>"]}
{"id": "C52", "title": "3D local expansion of far sources error bound", "statement": "For sources at distance at least r of the centre and x within rad < r, the potential of LocalExpansion<3>(center,p,sources) at x differs from the direct sum by at most A*(rad/r)^(p+1)/(r-rad).", "quantifier": "all source lists, centres, orders, points", "why_tests_cant": "continuum of inputs and all orders", "anchors": ["fmm/local_expansion.hpp: LocalExpansion<Vector,Source,3> (source constructor)"]}
{"id": "C53", "title": "3D multipole-to-local error bound", "statement": "For sources within r2 of c, x within r1 of center and dist(c,center) >= D > r1+r2, converting the multipole expansion about c to a local expansion about center and evaluating at x differs from the direct sum by at most A*((r2/(D-r1))^(p+1)+(r1/(D-r2))^(p+1))/(D-r1-r2).", "quantifier": "all source lists, centres, orders in 1..42, points, histories of the tables", "why_tests_cant": "continuum of inputs, all orders and histories", "anchors": ["fmm/local_expansion.hpp: LocalExpansion<Vector,Source,3>::multipoleToLocal"]}
{"id": "C54", "title": "Merging 3D multipole expansions is exact", "statement": "Merging the multipole expansions of several source lists about a new centre yields exactly (coefficient for coefficient, in exact arithmetic) the multipole expansion of the union about that centre.", "quantifier": "all lists of source lists, centres, orders in 1..42, table histories", "why_tests_cant": "an algebraic identity (addition theorem of solid harmonics) for all orders and positions", "anchors": ["fmm/multipole_expansion.hpp: MultipoleExpansion<Vector,Source,3> (merging constructor), shift"]}
{"id": "C55", "title": "Translating a 3D local expansion is exact", "statement": "A translated 3D local expansion has the new centre and the same potential at every point, in exact arithmetic.", "quantifier": "all local expansions, centres, orders in 1..42, points", "why_tests_cant": "identity over a continuum", "anchors": ["fmm/local_expansion.hpp: LocalExpansion<Vector,Source,3>::shift"]}
{"id": "C56", "title": "3D operations do not depend on the history of the tables", "statement": "Merging, translating and converting 3D expansions give the same result whatever expansions were created before in the program.", "quantifier": "all pairs of histories that reach the order, all expansions and centres", "why_tests_cant": "ranges over all program histories", "anchors": ["fmm/fmm_tables.hpp: AlmTable, SignTable", "fmm/series_expansion.hpp: SeriesExpansion<Vector,Source,3>"]}
{"id": "C57", "title": "3D expansion addition is guarded and pointwise", "statement": "Adding 3D expansions throws exactly when their orders or centres differ; otherwise the sum has the sum of the coefficients and of the potentials.", "quantifier": "all pairs of expansions", "why_tests_cant": "ranges over all pairs", "anchors": ["fmm/series_expansion.hpp: SeriesExpansion<Vector,Source,3>::operator+="]}
{"id": "C58", "title": "End-to-end accuracy of the adaptive 3D potential", "statement": "For sources in the root box and an order p in 1..42, AdaptiveFmmTree<3> has the same result under every schedule and its potential at every x in the root box differs from the direct sum over the sources not at x by at most A*2*(sqrt3/(4-sqrt3))^(p+1)/((2-sqrt3)*s), s the side of the smallest boxes (exactly 0 error with one leaf); outside the root box it is exactly the direct sum. Distinct sources (up to capacity) around the origin meet the hypotheses.", "quantifier": "all source sets, capacities, orders, points, schedules, table histories, both field types", "why_tests_cant": "the bound has to hold for every configuration and point", "anchors": ["fmm/adaptive_fmm_tree.hpp: AdaptiveFmmTree, evaluatePotential", "fmm/abstract_fmm_tree.hpp: AbstractFmmTree"]}
{"id": "C59", "title": "End-to-end accuracy of the balanced 3D potential", "statement": "The same bound for BalancedFmmTree<3> at every point of the half-open root box, with s the side of its leaves and height at most 10.", "quantifier": "all source sets, capacities, orders, points, schedules, table histories, both field types", "why_tests_cant": "the bound has to hold for every configuration and point", "anchors": ["fmm/balanced_fmm_tree.hpp: BalancedFmmTree, evaluatePotential"]}
{"id": "C60", "title": "Schedules of the parallel loops agree in three dimensions", "statement": "If one schedule of the parallel loops of the 3D adaptive constructor succeeds then all do, with the same object, and the loops do not modify the shared tables.", "quantifier": "all source sets, schedules, table states", "why_tests_cant": "ranges over all interleavings", "anchors": ["fmm/abstract_fmm_tree.hpp: parallel loops", "fmm/adaptive_fmm_tree.hpp: parallel loops"]}
{"id": "C61", "title": "Order zero cannot be used first in three dimensions", "statement": "In a program that has not created a 3D expansion of order at least 1, a 3D adaptive tree with more than one leaf whose accuracy selects order 0 never returns an object: its conversions read tables that were never allocated.", "quantifier": "all source sets, accuracies, capacities, schedules", "why_tests_cant": "a property of a range of accuracies for every source set", "anchors": ["fmm/fmm_tables.hpp: AlmTable::refresh", "fmm/abstract_fmm_tree.hpp: AbstractFmmTree"]}
{"id": "C62", "title": "3D expansion forces are the gradients of the expansion potentials", "statement": "At every point off the vertical line through its center, evaluateForcefield of a 3D multipole or local expansion returns three components that are minus the partial derivatives of its evaluatePotential.", "quantifier": "all orders, coefficients and points off the axis", "why_tests_cant": "a derivative identity over a continuum of points and coefficients", "anchors": ["fmm/multipole_expansion.hpp: MultipoleExpansion<3>::evaluateForcefield", "fmm/local_expansion.hpp: LocalExpansion<3>::evaluateForcefield", "fmm/fmm_tables.hpp: YlmDerivTable"]}
{"id": "C63", "title": "Truncation errors of the 3D expansion forces", "statement": "Off the axis, each force component of the order-p 3D expansions differs from the direct force of the sources by at most A(p+2)c^(p+1)/(r-a)^2 (multipole, c=a/r), A(p+1)c^p/(r-a)^2 (local from sources) and A((p+2)(r2/(D-r1))^(p+1)+(p+1)(r1/(D-r2))^p)/(D-r1-r2)^2 (converted multipole).", "quantifier": "all source sets, orders, centers, points, table histories", "why_tests_cant": "error bounds over continua", "anchors": ["fmm/multipole_expansion.hpp: MultipoleExpansion<3>", "fmm/local_expansion.hpp: LocalExpansion<3>"]}
{"id": "C64", "title": "End-to-end accuracy of the adaptive 3D forces", "statement": "For sources in the root box and an order p in 1..42, evaluateForcefield(x) of AdaptiveFmmTree<3> off the vertical axes of the boxes whose expansions are evaluated at x differs in each component from the direct force (near sources smoothed, far sources unsmoothed, coincident sources skipped) by at most A((p+2)u^(p+1)+(p+1)u^p)/((2-sqrt3)s)^2, u=sqrt3/(4-sqrt3); outside the root box it is exactly the direct force; on one of these axes the evaluation has no finite result. All schedules give the same object.", "quantifier": "all source sets, capacities, orders, points, smoothing, schedules, table histories, both field types", "why_tests_cant": "end-to-end bound over all inputs and schedules", "anchors": ["fmm/abstract_fmm_tree.hpp: evaluateForcefield", "fmm/adaptive_fmm_tree.hpp: AdaptiveFmmTree"]}
{"id": "C65", "title": "End-to-end accuracy of the balanced 3D forces", "statement": "The same for BalancedFmmTree<3> in the half-open root box, with s the side of the leaves and the axis through the center of the leaf containing x.", "quantifier": "all source sets, capacities, orders, points, smoothing, schedules, table histories, both field types", "why_tests_cant": "end-to-end bound over all inputs and schedules", "anchors": ["fmm/balanced_fmm_tree.hpp: BalancedFmmTree", "fmm/abstract_fmm_tree.hpp: evaluateForcefield"]}
{"id": "C66", "title": "Fast and direct library functions agree", "statement": "The Mathematica library's FMM functions (potentials at points, particle energies, particle forces) return arrays of the same shape as the corresponding direct functions and differ from them entry by entry by at most the truncation bound (times the particle's charge), in the plane and in space, for every schedule of the parallel loops.", "quantifier": "all argument arrays with enough charges whose sources straddle the origin, all orders >= 1 (<= 42 in space), all schedules", "why_tests_cant": "all inputs and schedules", "anchors": ["fmm/mathematica/MathematicaFMM.cpp: FMMEvaluatePotentials, DirectEvaluatePotentials, FMMParticleForces, DirectParticleForces, FMMParticlePotentialEnergies, DirectParticlePotentialEnergies"]}
{"id": "C67", "title": "Accuracy of the integrator's right-hand side", "statement": "The derivative computed by the integrator consists of the velocities, copied exactly, and of accelerations that differ from charge/mass times the direct field of the other particles by at most |charge/mass| times the force error bound.", "quantifier": "all particle states with nonzero masses, all schedules", "why_tests_cant": "all states", "anchors": ["fmm/examples/integrator.cpp: derivative_func"]}
{"id": "C68", "title": "Log files describe the tree completely", "statement": "The files written by toFile of the adaptive, balanced and point trees list every box exactly once in order of depth, numbered from 0 with depth, side length, center (and leaf flag), the sources of every leaf, and for every box the centers of exactly the boxes in its neighbour, interaction, X and W lists; different boxes have different centers, so the files determine the tree and its lists. (The rows of the W file carry no center of their own box.)", "quantifier": "all trees built by the constructors, all dimensions d >= 1", "why_tests_cant": "ranges over all trees and their unbounded depth", "anchors": ["fmm/adaptive_fmm_tree.hpp: toFile", "fmm/balanced_fmm_tree.hpp: toFile", "fmm/adaptive_point_orthtree.hpp: toFile"]}
{"id": "C69", "title": "Destroying a tree restores the heap", "statement": "For every tree the destructor releases exactly the blocks its constructor allocated and still holds, each once, touches nothing else, and recurses no deeper than the height of the tree plus one.", "quantifier": "all trees built by the constructors, all states of the heap", "why_tests_cant": "leaks and double frees must be excluded for every shape", "anchors": ["fmm/adaptive_fmm_tree.hpp: ~AdaptiveFmmTree, ~FmmNode", "fmm/adaptive_point_orthtree.hpp: destructors", "fmm/balanced_fmm_tree.hpp: ~BalancedFmmTree, ~FmmLeaf"]}
{"id": "C70", "title": "Tree objects must not be copied, and an exception in the constructor leaks", "statement": "The tree classes can be copied but own their memory: destroying a tree and then a copy of it is undefined behaviour for every tree. If the constructor of the balanced tree throws (a source above the root box), the node array, the leaf array, the table of buckets and all buckets stay allocated.", "quantifier": "all trees built by the constructors; all sources for which the constructor throws", "why_tests_cant": "undefined behaviour and leaks are not observable results", "anchors": ["fmm/adaptive_fmm_tree.hpp: ~AdaptiveFmmTree", "fmm/balanced_fmm_tree.hpp: distributePointSources", "fmm/balanced_orthtree.hpp: getLeafBoxIndices"]}
{"id": "C71", "title": "Changing the caller's vector after construction", "statement": "A tree keeps a reference to the vector it was built from. Inside the root box later changes of the vector have no influence on potential and force; outside they are the direct sums over the current contents, so the tree is not a snapshot.", "quantifier": "all sources, all later contents, all evaluation points, dimensions 2 and 3", "why_tests_cant": "ranges over all later histories of the vector", "anchors": ["fmm/abstract_fmm_tree.hpp: sources", "fmm/adaptive_fmm_tree.hpp: evaluatePotential, evaluateForcefield"]}
{"id": "C72", "title": "Printed expansions are labelled correctly", "statement": "operator<< prints every coefficient of an expansion exactly once, next to its own index (2D) or degree and order (3D). Printing a default-constructed expansion reads past the end.", "quantifier": "all expansions with as many coefficients as their order demands", "why_tests_cant": "all orders", "anchors": ["fmm/series_expansion.hpp: operator<<"]}
{"id": "C73", "title": "The point tree partitions its points", "statement": "AdaptivePointOrthtree: when construction returns, every point is in exactly one leaf, the leaf boxes tile the root box, no leaf holds more than max_points_per_leaf points, every refined box other than the root holds more (the root is always refined); construction returns iff no point of the root box is the nearest one to more than max_points_per_leaf points; a tree of no points is undefined behaviour.", "quantifier": "all nonempty point lists and capacities, all dimensions d >= 1", "why_tests_cant": "all inputs, unbounded depth, non-termination", "anchors": ["fmm/adaptive_point_orthtree.hpp: constructor, buildTree"]}
{"id": "C74", "title": "The adaptive tree is sound in double arithmetic", "statement": "In IEEE double arithmetic, whenever the adaptive constructor returns, every source (also one with inexact, infinite or NaN coordinates) is in exactly one leaf, leaves hold at most max_points_per_leaf sources and refined boxes more, every refined box has its 2^d children of half its length, the traversal visits every box once with parents first, and the descent reaches a leaf for every point, the right one for a source.", "quantifier": "all source lists with arbitrary double coordinates, all capacities, all dimensions", "why_tests_cant": "all rounding patterns, all depths", "anchors": ["fmm/adaptive_fmm_tree.hpp: buildTree, refineOrthant, getContainingLeaf", "fmm/abstract_orthtree.hpp: traverseBFSCore"]}
{"id": "C75", "title": "Interaction lists cover every source once in double arithmetic", "statement": "In IEEE double arithmetic, whatever the rounding errors of box centres and of the adjacency test, the constructor either throws the too-close exception or its lists account for every source exactly once at every leaf.", "quantifier": "all source lists with arbitrary double coordinates for which construction returns, all norm routines", "why_tests_cant": "all rounding patterns, all trees", "anchors": ["fmm/adaptive_fmm_tree.hpp: computeNodeNeighbourhood", "fmm/abstract_orthtree.hpp: BaseNode::adjacent"]}
{"id": "C76", "title": "Construction terminates in double arithmetic whenever it does in exact arithmetic", "statement": "If construction from distinct points terminates in exact arithmetic then it terminates in double arithmetic.", "quantifier": "all source lists", "why_tests_cant": "non-termination cannot be observed by a test", "anchors": ["fmm/adaptive_fmm_tree.hpp: constructor", "fmm/abstract_fmm_tree.hpp: getDataRange"]}
{"id": "C77", "title": "The constructor never throws the too-close exception in double arithmetic", "statement": "In double arithmetic computeNodeNeighbourhood never throws, as in exact arithmetic (C29).", "quantifier": "all source lists", "why_tests_cant": "all inputs; only data close to the resolution of doubles matters", "anchors": ["fmm/adaptive_fmm_tree.hpp: computeNodeNeighbourhood"]}
{"id": "C78", "title": "In double arithmetic the adaptive tree has at most 2102 levels", "statement": "Whenever construction of an adaptive tree in double arithmetic ends with a tree, that tree has height at most 2101, for all sources and every dimension; hence whether construction ends with a tree is decided by the first 2101 levels.", "quantifier": "all source lists, dimensions and leaf capacities", "why_tests_cant": "a bound over all inputs; the height depends on how close points are", "anchors": ["fmm/adaptive_fmm_tree.hpp: constructor, AdaptiveFmmTree::AdaptiveNode subdivision", "fmm/abstract_fmm_tree.hpp: getDataRange"]}
{"id": "C79", "title": "Rounding error of the direct potential", "statement": "In floating-point arithmetic whose operations have relative error at most u, with norm and logarithm accurate to relative error e, the direct potential of n sources is a number (no NaN/infinity) differing from the exact sum by at most an explicit factor, about (n+2)u+e, times the sum of the absolute values of the terms; in 53-bit arithmetic with at most 2^20 sources in space the factor is below 2^-32. Sources at the evaluation point are skipped by the safe variant.", "quantifier": "all source lists, evaluation points, rounding functions, norm and logarithm routines within the stated accuracy", "why_tests_cant": "worst-case error over all inputs and all library implementations", "anchors": ["fmm/fields.hpp: potential", "fmm/vector.hpp: norm, operator-"]}
{"id": "C80", "title": "Rounding error of the direct force", "statement": "Under the same accuracy of the operations and softening eps >= 0, every component of the direct force of n sources differs from the exact component by at most an explicit factor, about (n+9)u in the plane and (n+10)u+3e in space, times the sum of the absolute values of the contributions.", "quantifier": "all source lists, evaluation points, softenings, rounding functions and norm routines within the stated accuracy", "why_tests_cant": "worst-case error over all inputs and all library implementations", "anchors": ["fmm/fields.hpp: forcefield", "fmm/vector.hpp: norm, norm_sq, operator-, operator*="]}
{"id": "C81", "title": "A rule for choosing the requested accuracy", "statement": "Although a request eps does not bound the error by eps (C39), requesting eps <= 2 delta^2/(3A) in the plane (A the total absolute source strength) makes the potential of the adaptive and of the balanced tree accurate to delta at every point; in space eps <= (delta side)^3/(216 A^2), side the side of a smallest leaf, suffices as long as eps >= A/2^42.", "quantifier": "all source lists, wanted errors delta, capacities, schedules, table histories and evaluation points", "why_tests_cant": "worst case over all inputs and points", "anchors": ["fmm/adaptive_fmm_tree.hpp: constructor, evaluatePotential", "fmm/balanced_fmm_tree.hpp: constructor, evaluatePotential", "fmm/abstract_fmm_tree.hpp: order"]}
{"id": "C82", "title": "The integrator's trajectory file", "statement": "The integrator writes, in order, one record (time, then all positions and velocities) for each save time up to the first one at which the ODE solver reports failure, and nothing after it; if the solver always succeeds all 100 records are written. Missing input files raise an exception; a trajectory file that cannot be opened loses all output without any report.", "quantifier": "all input files and all behaviours of the ODE solver", "why_tests_cant": "every solver behaviour, including failures at any step", "anchors": ["fmm/examples/integrator.cpp: main"]}
{"id": "C83", "title": "Rounding errors of the parallel all-pairs functions", "statement": "With a rounding after every operation, and for every schedule of the parallel loop, each entry of particlePotentialEnergies and each component of particleForces differs from the exact sum over the other particles by at most a factor (about (N + 10) u) times the sum of the absolute pair terms (in the plane plus a term for the rounding of the distances under the logarithm).", "quantifier": "all source lists with distinct positions, all schedules, all roundings with relative error at most u and all norm and log routines with relative error at most e", "why_tests_cant": "all inputs and all interleavings", "anchors": ["fmm/fields.hpp: particlePotentialEnergies, particleForces"]}
{"id": "C84", "title": "Reproducibility of the parallel energies", "statement": "Two calls of particlePotentialEnergies with the same sources return the same doubles whatever the schedule.", "quantifier": "all source lists and pairs of schedules", "why_tests_cant": "depends on the interleaving of the threads", "anchors": ["fmm/fields.hpp: particlePotentialEnergies"]}
{"id": "C85", "title": "Accuracy of the direct potential relative to its value", "statement": "The direct potential computed in doubles has a small error relative to its exact value.", "quantifier": "all sources and points", "why_tests_cant": "worst case over all inputs", "anchors": ["fmm/fields.hpp: potential"]}
{"id": "C86", "title": "Balanced tree under rounding errors", "statement": "With double-precision rounding in every operation of the constructor, for sources that surround the origin with a moderate ratio of largest to smallest extent, BalancedFmmTree's constructor raises no exception or undefined behaviour; its boxes are the uniform grid up to small displacements; near and interaction lists are those of the exact grid; every leaf and source is accounted for exactly once; every source lies in its leaf and look-ups find it, up to a hundredth of the side.", "quantifier": "all source sets in range, heights below 32 with dim*height <= 32, all roundings with relative error at most 2^-53", "why_tests_cant": "adjacency and index computations compare rounded values; a wrong decision for one pair of boxes in one data set loses or doubles an interaction", "anchors": ["fmm/balanced_fmm_tree.hpp: BalancedFmmTree", "fmm/balanced_orthtree.hpp: getLeafBoxIndices", "fmm/abstract_orthtree.hpp: adjacent", "fmm/abstract_orthtree.hpp: getDataRange"]}
{"id": "C87", "title": "Balanced construction in doubles succeeds wherever it does in exact arithmetic", "statement": "For finite sources with coordinates of both signs in every dimension, construction of the balanced tree in doubles raises no exception and has no undefined behaviour.", "quantifier": "all finite double source sets on which exact construction succeeds", "why_tests_cant": "fails only for extreme ratios of the coordinates", "anchors": ["fmm/balanced_orthtree.hpp: getLeafBoxIndices", "fmm/abstract_orthtree.hpp: getDataRange"]}
{"id": "C88", "title": "Adaptive tree under rounding errors", "statement": "With double-precision rounding in every operation of the constructor, for sources that surround the origin with a moderate ratio of largest to smallest extent and that are not too close to each other, AdaptiveFmmTree's refinement ends and its constructor raises no exception; its boxes are cells of the exact grids up to small displacements; the near list of a leaf is exactly the leaves that touch it, interaction, X and W lists hold separated boxes, and together they account for every leaf and source exactly once; every source lies in its leaf up to a hundredth of the side; a look-up that finds a leaf finds the right one, and it finds the leaf of every point that is a thousandth of the side inside.", "quantifier": "all source sets in range, trees of height below 32, all roundings with relative error at most 2^-53", "why_tests_cant": "the lists depend on comparisons of rounded coordinates of boxes of different sizes; one wrong comparison loses or doubles an interaction", "anchors": ["fmm/adaptive_fmm_tree.hpp: AdaptiveFmmTree", "fmm/adaptive_fmm_tree.hpp: computeNodeNeighbourhood", "fmm/adaptive_fmm_tree.hpp: getContainingLeaf", "fmm/abstract_orthtree.hpp: adjacent"]}
{"id": "C89", "title": "Evaluation at a source position in doubles", "statement": "In doubles, as in exact arithmetic, the adaptive tree finds the leaf that stores a source when asked for the potential at that source's own position, so that the source itself is left out of the sum and the result is finite.", "quantifier": "all finite double source sets on which construction succeeds, all sources", "why_tests_cant": "fails only if a source coordinate falls within a rounding error of a box face", "anchors": ["fmm/adaptive_fmm_tree.hpp: getContainingLeaf", "fmm/adaptive_fmm_tree.hpp: evaluatePotential", "fmm/abstract_orthtree.hpp: contains"]}
{"id": "C90", "title": "Two-dimensional construction under rounding errors", "statement": "With double-precision rounding in the boxes, the expansions and the tables, for sources of the plane that surround the origin with a moderate ratio of largest to smallest extent and that are not too close to each other, AdaptiveFmmTree's constructor succeeds: no exception, no failed assertion, no division by zero, no access out of bounds; and every schedule of its parallel loops gives bit for bit the same object.", "quantifier": "all source sets in range, all capacities, orders, histories of earlier expansions, schedules, and all complex and real roundings with bounded relative error", "why_tests_cant": "the claim is about every interleaving of the loops and every rounding of every coefficient", "anchors": ["fmm/adaptive_fmm_tree.hpp: AdaptiveFmmTree", "fmm/multipole_expansion.hpp: MultipoleExpansion<2>", "fmm/local_expansion.hpp: LocalExpansion<2>"]}
{"id": "C91", "title": "Accuracy of the two-dimensional potential under rounding errors", "statement": "With double-precision rounding in every operation of construction and evaluation, the potential that AdaptiveFmmTree<2> returns at a point whose leaf is found differs from the direct sum over the other sources by at most the truncation error of the expansions, (3/4)^(p+1)/((p+1)/4) times the total absolute charge, plus a rounding error of relative size (1+w)^n - 1, where n depends on the order, the leaf capacity, the lengths of the lists and the height, but not on the number of sources; at other points without a source it is the direct sum up to the rounding errors of that sum.", "quantifier": "all source sets in range, all points representable in the arithmetic, all orders, capacities, schedules, and all complex and real roundings with bounded relative error", "why_tests_cant": "a test samples a few points; the bound is for the worst rounding of every operation at every point", "anchors": ["fmm/adaptive_fmm_tree.hpp: evaluatePotential", "fmm/multipole_expansion.hpp: MultipoleExpansion<2>::evaluatePotential", "fmm/local_expansion.hpp: LocalExpansion<2>::evaluatePotential", "fmm/series_expansion.hpp: shift"]}
{"id": "C92", "title": "No data race in the parallel construction loops", "statement": "The OpenMP loops of the AdaptiveFmmTree and BalancedFmmTree constructors, in two and three dimensions, have no data race: in every state they can reach, no iteration changes an expansion or a lookup table that another iteration of the same loop (or of the loop joined to it by nowait) reads or changes.", "quantifier": "all source sets on which the tree is built, all capacities, orders, lookup tables left by earlier expansions, all reachable states of every loop", "why_tests_cant": "a race shows only under particular timings, and with one thread never", "anchors": ["fmm/adaptive_fmm_tree.hpp: AdaptiveFmmTree", "fmm/balanced_fmm_tree.hpp: BalancedFmmTree", "fmm/abstract_fmm_tree.hpp: localToLocal", "fmm/abstract_fmm_tree.hpp: multipoleToLocal"]}
{"id": "C93", "title": "Accuracy of the two-dimensional force field under rounding errors", "statement": "With double-precision rounding in every operation of construction and evaluation, each component of the force field that AdaptiveFmmTree<2> returns at a point whose leaf is found differs from the direct sum over the other sources (smoothed for the near, unsmoothed for the far ones, which are at least a third of the smallest box radius away) by at most the truncation error 3 (3/4)^p / r times the absolute charge, r bounding the box radii from below, plus a rounding error of relative size (1+w)^n - 1, where n depends on the order, the leaf capacity, the lengths of the lists and the height, but not on the number of sources; at other points without a source it is the smoothed direct sum up to the rounding errors of that sum.", "quantifier": "all source sets in range, all points representable in the arithmetic, all smoothing parameters, orders, capacities, schedules, and all complex and real roundings with bounded relative error", "why_tests_cant": "a test samples a few points; the bound is for the worst rounding of every operation at every point", "anchors": ["fmm/adaptive_fmm_tree.hpp: evaluateForcefield", "fmm/multipole_expansion.hpp: MultipoleExpansion<2>::evaluateForcefield", "fmm/local_expansion.hpp: LocalExpansion<2>::evaluateForcefield", "fmm/fields.hpp: forcefield"]}
{"id": "C94", "title": "Accuracy of the two-dimensional balanced tree under rounding errors: potential", "statement": "With double-precision rounding in every operation of construction and evaluation, BalancedFmmTree<2> is built for every height up to 16, with the same result whatever the order of its parallel loops, and the potential it returns at a point of the bounding box of the sources, sources included, differs from the direct sum over the other sources by at most the truncation error 4 (3/4)^(p+1)/(p+1) times the absolute charge, the error of the logarithm near 1, and a rounding error of relative size (1+w)^n - 1 where n depends on the order, the number of sources per leaf and the height, not on the number of sources; no evaluation at such a point fails.", "quantifier": "all source sets in range, all points of their bounding box representable in the arithmetic, all orders, heights, schedules, and all complex and real roundings with bounded relative error", "why_tests_cant": "a test samples a few points; the bound is for the worst rounding of every operation at every point", "anchors": ["fmm/balanced_fmm_tree.hpp: BalancedFmmTree", "fmm/balanced_fmm_tree.hpp: evaluatePotential", "fmm/balanced_orthtree.hpp: BalancedOrthtree", "fmm/multipole_expansion.hpp: MultipoleExpansion<2>", "fmm/local_expansion.hpp: LocalExpansion<2>"]}
{"id": "C95", "title": "Accuracy of the two-dimensional balanced tree under rounding errors: force field", "statement": "With double-precision rounding in every operation, each component of the force field BalancedFmmTree<2> returns at a point of the bounding box of the sources differs from the direct sum over the other sources by at most 3 (3/4)^p / r times the absolute charge, r bounding the leaf radius from below, plus a rounding error of relative size (1+w)^n - 1 that does not grow with the number of all sources; with smoothing, the near sources are smoothed and the far ones, at least r/3 away, are not.", "quantifier": "all source sets in range, all points of their bounding box representable in the arithmetic, all smoothing parameters, orders, heights, schedules, and all complex and real roundings with bounded relative error", "why_tests_cant": "a test samples a few points; the bound is for the worst rounding of every operation at every point", "anchors": ["fmm/balanced_fmm_tree.hpp: evaluateForcefield", "fmm/balanced_orthtree.hpp: BalancedOrthtree", "fmm/local_expansion.hpp: LocalExpansion<2>::evaluateForcefield", "fmm/fields.hpp: forcefield"]}
{"id": "C96", "title": "The work caused by the lists is linear", "statement": "In the balanced tree a near list has at most 3^d and an interaction list at most 6^d - 3^d entries, in exact arithmetic and with rounding errors. In the adaptive tree interaction lists have at most 6^d - 3^d and X lists at most 3^d entries, interaction and near lists are symmetric and X and W lists opposite; hence all list entries together are at most (6^d + 3^d) per box and 2 3^d neighbouring leaves per leaf, and evaluating at all N sources sums at most 2 3^d cap N pairs directly, however uneven the sources. The number of boxes is 1 + 2^d times the inner boxes, at most height N / (cap + 1).", "quantifier": "all source sets, dimensions, capacities and heights for which the tree is built", "why_tests_cant": "the bound must hold for the worst distribution of sources, where single W and near lists are unbounded", "anchors": ["fmm/adaptive_fmm_tree.hpp: computeNodeNeighbourhood", "fmm/balanced_fmm_tree.hpp: computeNodeNeighbourhood", "fmm/adaptive_fmm_tree.hpp: evaluatePotential"]}
{"id": "C97", "title": "Order and height computed with rounding errors", "statement": "With small relative errors in quotients, sums and logarithms, the height the balanced constructor computes is the least that gives enough leaves, and the order both constructors compute is the least p with A / 2^p <= eps, each up to a thousandth; they differ from the values of exact arithmetic by at most one, and not at all away from powers of the number of children. They are undefined when the quotient is below the reciprocal of the number of children (of 2) by a thousandth. One more than needed does happen: in double precision for A / eps = 2^29 the order is 30.", "quantifier": "all numbers of sources, capacities, charges and accuracies in range, all arithmetics with the given errors", "why_tests_cant": "the rounding of a quotient of logarithms depends on the library and on every input", "anchors": ["fmm/abstract_fmm_tree.hpp: AbstractFmmTree", "fmm/balanced_fmm_tree.hpp: BalancedFmmTree"]}
{"id": "C98", "title": "The constructors from their arguments alone, with rounding errors", "statement": "Called with sources, sources per cell and accuracy, in rounded arithmetic, the constructors of the two-dimensional trees choose order and height, build the tree and have exactly one result under every schedule of their parallel loops; A / 2^order is at most the accuracy and the leaves are enough, up to a thousandth, and the potential reported satisfies the error bound of C94 resp. C91 for that order and height.", "quantifier": "all sources in range, capacities, accuracies, schedules, evaluation points, arithmetics with the given errors", "why_tests_cant": "composition of rounding of the parameters, of the boxes, of the expansions and of schedules", "anchors": ["fmm/balanced_fmm_tree.hpp: BalancedFmmTree", "fmm/adaptive_fmm_tree.hpp: AdaptiveFmmTree", "fmm/abstract_fmm_tree.hpp: AbstractFmmTree"]}
{"id": "C99", "title": "The trees in IEEE doubles are those of the rounded model", "statement": "For sources whose coordinates are zero or between 2^-200 and 2^200 in absolute value, the balanced tree (up to height 31) and the adaptive tree (up to sixty levels of refinement) built in IEEE binary64 arithmetic - boxes, source lists, near-neighbour and interaction lists, leaf look-up, and the failure of the construction if it fails - are those of the model in which every operation is rounded to nearest without bounds on the exponent.", "quantifier": "all sources with ordinary coordinates, capacities, heights in range, evaluation points", "why_tests_cant": "overflow, underflow and non-finite intermediate values would have to be excluded for every input", "anchors": ["fmm/balanced_orthtree.hpp: BalancedOrthtree", "fmm/adaptive_orthtree.hpp: AdaptiveOrthtree", "fmm/orthtree.hpp: Node", "fmm/vector.hpp: Vector_"]}
{"id": "C100", "title": "Correct trees in IEEE doubles", "statement": "In IEEE binary64 arithmetic, for data in range: the constructors of both trees raise no exception and have no undefined behaviour, the adaptive refinement ends, every source is in exactly one leaf and at most a hundredth of the side outside it, every leaf is accounted for exactly once at every leaf, interacting boxes are separated, and the look-up of a point finds the leaf it is in.", "quantifier": "all sources in range with ordinary coordinates, capacities, heights, evaluation points", "why_tests_cant": "rounding of the boxes depends on every input", "anchors": ["fmm/balanced_orthtree.hpp: BalancedOrthtree", "fmm/adaptive_orthtree.hpp: AdaptiveOrthtree", "fmm/balanced_fmm_tree.hpp: BalancedFmmTree", "fmm/adaptive_fmm_tree.hpp: AdaptiveFmmTree"]}
{"id": "C101", "title": "The example program", "statement": "For every sequence of results of rand() and every number of sources, the sources of the example program are in the square of side 32. If they lie on both sides of the axes, no more than fifty at one place, and the absolute charges sum up to more than 10, the program prints the position of the first source, a number v and the potential w at that position of the sources elsewhere, and (v - w)^2 is at most 15 times the sum. If the sum is at most 10, or more than fifty sources coincide, it prints nothing: undefined behaviour, an exception or no end.", "quantifier": "all pseudo-random sequences, numbers of sources, schedules", "why_tests_cant": "a test sees one sequence", "anchors": ["fmm/examples/minimal.cpp: main", "fmm/adaptive_fmm_tree.hpp: AdaptiveFmmTree", "fmm/fields.hpp: potential"]}
{"id": "C102", "title": "Numbers in files", "statement": "Numbers written to a file by the library and read again come back in the same number and, weakly, in the same order, with a relative change of at most 6.2e-16. A double comes back unchanged.", "quantifier": "all lists of numbers", "why_tests_cant": "depends on the binary and decimal digits of every number", "anchors": ["fmm/debugging.hpp: iterableToFile, vecToFile", "fmm/fmm_general.hpp: sourceLocationsToFile, vectorFromFile"]}
{"id": "C103", "title": "Console text", "statement": "Printing the first len elements of a vector prints them as the iterable printer would, and is undefined if there are fewer; stamps of different iterations or processes differ and are aligned for fewer than ten thousand iterations; durations are short by less than a nanosecond.", "quantifier": "all vectors, lengths, numbers, durations", "why_tests_cant": "injectivity over all numbers", "anchors": ["fmm/debugging.hpp: printIterable, printVec, time_proc_stamp, chrono_duration"]}
{"id": "C104", "title": "Direct sums in IEEE doubles", "statement": "In IEEE double arithmetic, for at most 2^53 sources whose coordinates and charges, like the coordinates of the point, are zero or between 2^-150 and 2^150 in absolute value, and library functions hypot and log of relative error at most e, the direct potential and every component of the direct force are finite numbers, neither overflow nor underflow happens, and the result differs from the exact sum over the sources not at the point by at most the bounds of C79 and C80 with u = 2^-53; with at most 2^20 sources in space, by at most 2^-32 of the sum of the absolute terms.", "quantifier": "all lists of at most 2^53 sources, points, softening parameters, both fields, safe and unsafe variants, all library norms and logarithms of the stated accuracy", "why_tests_cant": "a test sees some roundings, not all; overflow and underflow depend on all magnitudes", "anchors": ["fmm/fields.hpp: potential, forcefield", "fmm/vector.hpp: norm, norm_sq"]}
{"id": "C105", "title": "Distinct points and the direct force in doubles", "statement": "In IEEE double arithmetic, the safe direct force of a nonzero charge at a point that differs in a coordinate is finite and not zero in that coordinate.", "quantifier": "all pairs of distinct points with finite coordinates, all nonzero charges", "why_tests_cant": "fails only for extreme distances", "anchors": ["fmm/fields.hpp: forcefield"]}
{"id": "C106", "title": "The 3D adaptive tree in rounded arithmetic", "statement": "With rounding errors of double precision in the boxes, the expansions, the library functions and the direct sums, for sources in range that are apart, the constructor of the three-dimensional adaptive tree called with the sources, the sources per cell and the accuracy succeeds and has exactly one result under every schedule of its parallel loops; its order makes A / 2^p at most the accuracy (up to a thousandth, A the sum of the absolute charges); evaluating the potential at a machine point always ends; in a cell the result is the direct sum over the other sources up to the truncation error 5 (4/5)^(p+1) A / (m / 2^h) and a rounding error proportional to the sum of the absolute contributions whose factor does not depend on the number of sources; outside the tree it is the direct sum up to the rounding errors of the summation.", "quantifier": "all sources in range, capacities, accuracies between 2^-41 A and A, heights, evaluation points, both fields, all schedules, all arithmetics with relative errors at most 1e-7 that round like double precision in the boxes, all earlier table states", "why_tests_cant": "rounding errors depend on all inputs; a test sees one compiler, one schedule and some inputs", "anchors": ["fmm/adaptive_fmm_tree.hpp: AdaptiveFmmTree, evaluatePotential", "fmm/multipole_expansion.hpp: MultipoleExpansion<3>", "fmm/local_expansion.hpp: LocalExpansion<3>", "fmm/abstract_fmm_tree.hpp: AbstractFmmTree"]}
{"id": "C107", "title": "3D expansions in rounded arithmetic", "statement": "In rounded arithmetic, the potential of a three-dimensional multipole expansion outside its sources, of a local expansion inside, and of a local expansion obtained from sources by shifting, conversion and translation, differs from the direct sum by at most the truncation error of exact arithmetic plus an explicit multiple of the sum of the absolute contributions of the sources.", "quantifier": "all sources, orders, centres and radii in the domains of convergence, all arithmetics with relative errors at most 1/2, all earlier table states", "why_tests_cant": "for all inputs and roundings", "anchors": ["fmm/multipole_expansion.hpp: MultipoleExpansion<3>", "fmm/local_expansion.hpp: LocalExpansion<3>"]}
{"id": "C108", "title": "Shifts of 3D expansions compose and can be undone", "statement": "In exact arithmetic, merging groups of three-dimensional multipole expansions and then the results equals merging all of them at once; shifting a multipole or a local expansion back to its old centre restores every coefficient; translating a local expansion twice equals translating it once. This holds for arbitrary coefficients, not only for those of sources.", "quantifier": "all expansions of every order covered by the tables, all centres, all groupings", "why_tests_cant": "an algebraic identity between triple sums for all coefficients", "anchors": ["fmm/multipole_expansion.hpp: MultipoleExpansion<3>::shift, constructor from expansions", "fmm/local_expansion.hpp: LocalExpansion<3>::shift"]}
{"id": "C109", "title": "Spherical harmonics in rounded arithmetic", "statement": "The spherical harmonics an expansion computes for the direction of a vector are right up to the rounding errors of the operations used. (This fails near the polar axis: see the note. What holds: the error is that of (kl + 4)(l + 1) roundings for degree l, plus the effect of turning the vector by 5 sqrt w, or 25 w / sin theta away from the axis; the adaptive tree with these harmonics has the error bound of C106 with this accuracy.)", "quantifier": "all vectors, degrees and orders, all libraries of the stated accuracy; for the failure all Legendre functions and complex operations", "why_tests_cant": "the loss occurs only in a narrow cone around the polar axis", "anchors": ["fmm/fmm_tables.hpp: YlmTable", "fmm/vector.hpp: toSpherical"]}
{"id": "C110", "title": "Three-dimensional balanced tree in rounded arithmetic", "statement": "Constructing a three-dimensional balanced tree from sources, sources per cell and accuracy, in floating point, gives one result whatever the thread schedule; the computed order and height are right up to a thousandth; its potential at every point of the sources' bounding box is the direct sum over the other sources up to truncation and a rounding error that does not grow with the number of sources.", "quantifier": "all source lists in range, sources per cell, accuracies, arithmetics of the stated accuracy, schedules, evaluation points of the bounding box", "why_tests_cant": "every source configuration and point, every accuracy of the floating point operations and every interleaving of the parallel loops", "anchors": ["fmm/balanced_fmm_tree.hpp: BalancedFmmTree, evaluatePotential", "fmm/balanced_orthtree.hpp: BalancedOrthtree", "fmm/abstract_fmm_tree.hpp: AbstractFmmTree"]}
{"id": "C111", "title": "Three-dimensional forces in rounded arithmetic", "statement": "The force of a three-dimensional local or multipole expansion computed in floating point at a point off the vertical line through its centre is the exact force at a point nearby up to rounding errors of the terms.", "quantifier": "all well-formed expansions, orders, evaluation points off the vertical line, arithmetics of the stated accuracy", "why_tests_cant": "every expansion and point, every accuracy of the floating point operations and of the Legendre library; the failing cone of directions is too thin for random tests", "anchors": ["fmm/multipole_expansion.hpp: evaluateForcefield", "fmm/local_expansion.hpp: evaluateForcefield", "fmm/fmm_tables.hpp: YlmDerivTable", "fmm/vector.hpp: toCartesianBasis"]}
{"id": "C112", "title": "All-pairs energies and forces in double precision", "statement": "In double precision the parallel all-pairs potential energies and forces contain no infinity or NaN, and each entry differs from the exact energy or force by at most the bound of C83, whatever the interleaving of the threads' atomic updates.", "quantifier": "all lists of at most 2^25 sources at different positions with coordinates and charges that are zero or between 2^-150 and 2^150 in absolute value (charges between 2^-75 and 2^75 for the forces), all interleavings of the updates, all library functions hypot and log of the stated accuracy", "why_tests_cant": "every set of sources in the range and every schedule; overflow and underflow of an intermediate result occur at isolated magnitudes", "anchors": ["fmm/fields.hpp: particlePotentialEnergies", "fmm/fields.hpp: particleForces"]}
{"id": "C113", "title": "Two-dimensional expansions contain no infinity or NaN", "statement": "In double precision the two-dimensional multipole and local expansions of sources with finite positions and charges have finite coefficients and evaluate to finite potentials and forces at points away from the sources, in whatever units the positions are given. (The coefficients of expansions formed from sources are finite as long as a power bound on the distances holds; when the highest power of a distance overflows, or the power of the reciprocal of the distance of two box centers or of a source from the center of a local expansion, every later value is infinite or NaN, although the direct sum is finite.)", "quantifier": "all finite sources, centers, orders, evaluation points and chains of conversions, shifts and additions of expansions; every product of complex numbers given by the usual formula (with any treatment of NaN results), every logarithm and table of binomials", "why_tests_cant": "overflow depends on the order and on the units; a test in one range of distances shows nothing of it", "anchors": ["fmm/multipole_expansion.hpp: MultipoleExpansion<Vector, Source, 2>", "fmm/local_expansion.hpp: LocalExpansion<Vector, Source, 2>", "fmm/series_expansion.hpp: operator+=", "fmm/fmm_tables.hpp: PowTable"]}
{"id": "C114", "title": "Node counts of the balanced tree are exact in double precision", "statement": "The numbers of nodes and leaves of a balanced tree and the offsets of its levels, which the code obtains by floating-point powers and divisions converted to integers, are exact: (2^d - 1) times the number of inner nodes is 2^(dh) - 1, there are 2^(dh) leaves, level k has 2^(dk) nodes and starts at (2^(dk) - 1)/(2^d - 1).", "quantifier": "all dimensions d >= 2 and heights h >= 1 with d*h <= 53, all levels, every pow that is exact where the power is an integer of at most 53 bits", "why_tests_cant": "rounding of the quotient of the power by 2^d - 1, which is never an integer, for all heights; beyond 53 bits the count is wrong", "anchors": ["fmm/balanced_fmm_tree.hpp: BalancedFmmTree (lines 100-101, 158-160, 181-183)"]}
{"id": "C115", "title": "Range in which the two-dimensional expansions do not overflow", "statement": "In double precision the coefficients, potentials and forces of the two-dimensional expansions, through formation from sources, merging, conversion, shifting, addition and evaluation, are all finite as long as the units, the order and the height of the tree satisfy an explicit inequality: a + 2N + hn + g + 4 + p(4b + 2h + j + 14) <= 960 (for the multipole expansions a + N + hn + g + p(2b + 2h + 5) + b + 4 <= 960) for order p, charges up to 2^a, distances between 2^-b and 2^b, lists of at most 2^N sources or expansions, h rounds of merging 2^n expansions and j rounds of shifts and additions, logarithms up to 2^g.", "quantifier": "all sources, centers, evaluation points and expansions so derived, all parameters satisfying the inequality, every complex product, quotient and logarithm with the stated bounds", "why_tests_cant": "no overflow in any of the intermediate powers, products and sums, for every input and every sequence of operations", "anchors": ["fmm/multipole_expansion.hpp: MultipoleExpansion (lines 38-137)", "fmm/local_expansion.hpp: LocalExpansion (lines 26-176)", "fmm/series_expansion.hpp: SeriesExpansion (lines 45-81)"]}
{"id": "C116", "title": "Accuracy of the two-dimensional multipole expansions in doubles", "statement": "In double precision, underflow included, coefficient k of the two-dimensional multipole expansion of n sources with charges up to q at distances up to rho from the center differs from the exact coefficient by at most (n+1)(5(n+1)+24k+12) 2^-53 q rho^k if it is finite; the evaluated potential, if finite, differs from the exact value of the expansion by at most (n+1) q 2^-53 (b+p+1)(12(n+1)+83p+62), and in an explicit range of units and orders it is finite and differs from the sum of charge times logarithm of the distance by at most this plus the truncation error n q t^(p+1)/((p+1)(1-t)), t = rho / distance.", "quantifier": "all lists of at most about a million sources, all centers, evaluation points outside the sources' circle at distances between 2^-b and 2^b, all orders p with a + 2b(p+1) <= 1000 where q >= 2^-a, every complex product, quotient and logarithm with the stated accuracy", "why_tests_cant": "an error bound for every input, through all intermediate powers, products, quotients and sums, with rounding and underflow", "anchors": ["fmm/multipole_expansion.hpp: MultipoleExpansion<2> constructor from sources (lines 38-60)", "fmm/multipole_expansion.hpp: MultipoleExpansion<2>::evaluatePotential (lines 100-117)"]}
{"id": "C117", "title": "Accuracy of the force of two-dimensional multipole expansions in doubles", "statement": "In double precision, underflow included, the force vector evaluated from the two-dimensional multipole expansion of n sources with charges up to q at distances up to rho from the center, at distance D >= rho from it, differs, if finite, from the exact force of the expansion of order p by at most (n+1) q 2^-53 (p+1)^2 (6(n+1)+25p+75)/D; in an explicit range of units and orders it is a finite vector with two entries and differs from the sum of - charge (x-y)/|x-y|^2 over the sources by at most this plus the truncation error n q (rho/D)^(p+1)/(D-rho).", "quantifier": "all lists of at most about a million sources, all centers, evaluation points outside the sources' circle at distances between 2^-b and 2^b, all orders p with a + 2b(p+2) <= 1000 where q >= 2^-a, every complex product and quotient with the stated accuracy", "why_tests_cant": "an error bound for every input, through all intermediate powers, products, quotients and sums, with rounding and underflow", "anchors": ["fmm/multipole_expansion.hpp: MultipoleExpansion<2>::evaluateForcefield (lines 119-137)", "fmm/multipole_expansion.hpp: MultipoleExpansion<2> constructor from sources (lines 38-60)"]}
