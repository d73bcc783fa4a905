{"id": "C01", "title": "Connected components partition the graph", "statement": "If the recorded connections are symmetric, calling get_component until it returns false yields lists that contain every node given to init exactly once, and two nodes are in the same list exactly when a chain of connections links them.", "quantifier": "every finite set of nodes (any addresses, any order) and every symmetric connection relation built by any sequence of init/connect calls", "why_tests_cant": "The number of graphs and address orders is unbounded; the tests build one graph.", "anchors": ["include/connectedcomponents.hpp: ConnectedComponents::init, connect, get_component"]}
{"id": "C02", "title": "One component is exactly what is reachable from the smallest key", "statement": "For any (also one-way) connection relation, one get_component call terminates and returns, without duplicates, exactly the nodes reachable from the smallest stored key, and it removes exactly these from the structure.", "quantifier": "every connection map, symmetric or not", "why_tests_cant": "Termination and completeness of a graph walk need an invariant over all graphs.", "anchors": ["include/connectedcomponents.hpp: ConnectedComponents::get_component"]}
{"id": "C03", "title": "A node belongs to one component whatever the direction of connect", "statement": "A node appears in at most one returned component even when connect was only called in one direction.", "quantifier": "every sequence of init/connect calls", "why_tests_cant": "The existing test only connects from the smallest key outwards, where the problem is invisible.", "anchors": ["include/connectedcomponents.hpp: ConnectedComponents::connect, get_component"]}
{"id": "C04", "title": "Spatial search is exact", "statement": "After any sequence of insertions, removals and clears, a search returns exactly the live entries whose rectangle overlaps the query rectangle (touching counts), each as often as it is stored.", "quantifier": "every operation history and every query rectangle", "why_tests_cant": "Node splits, re-insertions and root shrinking depend on the whole history; tests cover a handful of boxes.", "anchors": ["include/RTree.h: RTree::Insert, Remove, RemoveAll, Search"]}
{"id": "C05", "title": "The spatial index stays balanced and correctly covered", "statement": "After any history all leaves are on the same level, no node has more than 8 children, every non-root node has at least 4, and every stored cover rectangle is exactly the smallest rectangle around what is below it or contains it.", "quantifier": "every operation history", "why_tests_cant": "Structural invariants over unbounded histories.", "anchors": ["include/RTree.h: RTree::InsertRect, AddBranch, SplitNode, RemoveRect, CondenseTree part of RemoveRectRec"]}
{"id": "C06", "title": "Removing with the box used at insertion removes exactly that entry", "statement": "Remove(box, id) called with the box the entry was inserted with removes exactly one entry with this id and leaves all other entries unchanged; with an id that is not stored nothing changes.", "quantifier": "every reachable tree, every stored entry", "why_tests_cant": "Removal follows overlapping branches and condenses nodes; correctness depends on the tree shape.", "anchors": ["include/RTree.h: RTree::Remove, RemoveRect, RemoveRectRec"]}
{"id": "C07", "title": "Node splitting never reads uninitialised indices", "statement": "Splitting an overfull node always selects two seeds and always selects a next branch, so no uninitialised index is used.", "quantifier": "every node content", "why_tests_cant": "The guard compares volumes; the failing inputs (huge boxes, where adding 1 is lost to rounding) are never generated by tests.", "anchors": ["include/RTree.h: RTree::PickSeeds, ChoosePartition"]}
{"id": "C08", "title": "Iteration visits every entry once", "statement": "GetFirst followed by repeated increment visits every stored entry exactly once and then reports the end; the fixed-size stack never overflows for trees of at most 32 levels.", "quantifier": "every reachable tree", "why_tests_cant": "Depends on arbitrary tree shapes.", "anchors": ["include/RTree.h: RTree::Iterator, GetFirst, GetNext"]}
{"id": "C09", "title": "Save followed by Load restores the index", "statement": "Loading a stream written by Save yields a tree with the same structure and entries.", "quantifier": "every reachable tree", "why_tests_cant": "All trees, all shapes.", "anchors": ["include/RTree.h: RTree::Save, SaveRec, Load, LoadRec"]}
{"id": "C10", "title": "Assignment feasibility is decided exactly", "statement": "lap reports failure exactly when no assignment of all rows to distinct columns with only finite costs exists.", "quantifier": "every matrix with at most 30 rows, any number of columns, entries finite or +infinity", "why_tests_cant": "The check enumerates all row subsets; correctness is Hall's theorem, not a finite set of samples.", "anchors": ["include/rlapjv.h: lap, rlap"]}
{"id": "C11", "title": "The returned assignment is optimal", "statement": "When lap succeeds, each row has its own column, all chosen entries are finite, and no other complete assignment has a smaller total cost.", "quantifier": "every matrix with at most 30 rows, entries finite or +infinity", "why_tests_cant": "Optimality over all assignments and all matrices.", "anchors": ["include/rlapjv.h: lap, rlap"]}
{"id": "C12", "title": "The dual variables certify optimality", "statement": "When lap succeeds the returned u, v satisfy: column prices are never positive, unassigned columns have price 0, on every row whose price is finite all reduced costs are at least 0 and the chosen one is 0, and rows with infinite price have no alternative in any feasible assignment.", "quantifier": "every matrix with at most 30 rows, entries finite or +infinity", "why_tests_cant": "Murty's lower bounds rely on this for all inputs; no test looks at u and v.", "anchors": ["include/rlapjv.h: rlap", "include/murty.hpp: MurtyState::sort_by_dual"]}
{"id": "C13", "title": "The assignment solver is memory safe and terminates", "statement": "lap never indexes outside its arrays (in particular never with the -1 'no second column' marker) and always returns, in exact arithmetic.", "quantifier": "every matrix with at most 30 rows, entries finite or +infinity", "why_tests_cant": "Absence of out-of-bounds accesses and of endless loops are claims about all runs; the loop has no counter.", "anchors": ["include/rlapjv.h: find_umins_plain, rlap, lap"]}
{"id": "C14", "title": "Assignment works for any number of rows", "statement": "lap works for every number of rows that fits in memory.", "quantifier": "every number of rows", "why_tests_cant": "Tests use at most 10 rows; the subset counter is a 32-bit int.", "anchors": ["include/rlapjv.h: lap (loop over n)"]}
{"id": "C15", "title": "Murty draws come in order of cost", "statement": "Successive draws never return a cheaper solution than an earlier one.", "quantifier": "every cost matrix (up to 30 rows, entries finite or +infinity) and every number of draws, whatever order the queue uses among equals", "why_tests_cant": "All matrices and all draw histories.", "anchors": ["include/murty.hpp: Murty::draw"]}
{"id": "C16", "title": "Murty returns the true cost of a solution", "statement": "The cost returned with a draw equals the sum of the entries of the matrix given by the caller at the returned positions, also for matrices with negative entries; the solution assigns distinct columns.", "quantifier": "every cost matrix and every draw", "why_tests_cant": "Index maps of nested sub-problems and the negative-cost offset must be right on every path.", "anchors": ["include/murty.hpp: Murty::Murty, draw, MurtyState::solve, partition_with, get_partition_index"]}
{"id": "C17", "title": "Murty enumerates every finite assignment exactly once", "statement": "Drawing until draw returns false produces each finite-cost assignment exactly once and nothing else; afterwards draw keeps returning false.", "quantifier": "every cost matrix", "why_tests_cant": "Completeness of a branch-and-bound enumeration for all matrices.", "anchors": ["include/murty.hpp: Murty::draw, MurtyState::partition_with, partition_without, sort_by_dual"]}
{"id": "C18", "title": "The first k draws are k best assignments", "statement": "After k successful draws, every assignment not yet drawn costs at least as much as every drawn one.", "quantifier": "every cost matrix and every k", "why_tests_cant": "The tracker truncates hypotheses by it; tests only compare costs on fixed matrices.", "anchors": ["include/murty.hpp: Murty::draw"]}
{"id": "C19", "title": "Existence probabilities stay in [0,1]", "statement": "After any sequence of predictions (non-negative time steps, survival probability in [0,1]) and corrections every target's existence probability is between 0 and 1.", "quantifier": "every history of tracker calls, every sensor and report", "why_tests_cant": "An invariant over unbounded histories.", "anchors": ["include/cluster.hpp: Cluster_::correct", "include/target.hpp: Target_::correct, predict", "include/lmb.hpp: SILMB::birth"]}
{"id": "C20", "title": "A report's probability mass is split between targets and birth", "statement": "After a correction, for each report of a cluster with targets the detection probabilities over the targets plus the report's birth weight rB are exactly 1, and rB is in [0,1]; a report in a cluster without targets gets rB = 1.", "quantifier": "every cluster, cost matrix and truncation setting", "why_tests_cant": "Follows from distinctness of columns in every drawn hypothesis.", "anchors": ["include/cluster.hpp: Cluster_::correct"]}
{"id": "C21", "title": "Untruncated correction equals the exact association marginals", "statement": "If the hypothesis limits never stop the enumeration, the association probabilities are the sums of exp(-cost) over all assignments using that pair divided by the sum over all assignments.", "quantifier": "every cluster", "why_tests_cant": "Exactness over all assignments.", "anchors": ["include/cluster.hpp: Cluster_::correct"]}
{"id": "C22", "title": "Hypothesis truncation keeps the best hypotheses", "statement": "A correction uses at least one hypothesis and at most max(1, nhyp_max) of them, every unused hypothesis is no more likely than every used one, and if it stopped early because of w_lim every unused hypothesis has a weight below w_lim times the total weight used.", "quantifier": "every cluster and every parameter setting", "why_tests_cant": "All cost matrices and stopping points.", "anchors": ["include/cluster.hpp: Cluster_::correct", "include/params.hpp: Params"]}
{"id": "C23", "title": "A lone undetected target follows Bayes' rule", "statement": "A cluster with one target and no reports changes its existence probability from r to r*m/(r*m + 1 - r), where m is its probability of being missed, provided the settings let two hypotheses be drawn (nhyp_max > 1, w_lim <= 1); a result below 1e-6 is replaced by 0.", "quantifier": "every r in (0,1) and every m in (0,1]", "why_tests_cant": "An exact formula over a continuum.", "anchors": ["include/cluster.hpp: Cluster_::correct", "include/target.hpp: Target_::match, false_target"]}
{"id": "C24", "title": "Correction weights survive very unlikely scenes", "statement": "The corrected existence probabilities and birth weights are numbers in [0,1] for every cluster with a possible hypothesis, also when all hypotheses are extremely unlikely.", "quantifier": "every cluster, including those where every exp(-cost) underflows to 0 in double precision", "why_tests_cant": "Needs costs above 745; no test has them. The code marks impossible cells with 30000, not infinity.", "anchors": ["include/cluster.hpp: Cluster_::correct", "include/constants.hpp: inf", "include/target.hpp: Target_::false_target"]}
{"id": "C25", "title": "Clustering partitions reports and targets", "statement": "Clustering puts every report of the scan in exactly one cluster and every target in view or matched by a report in exactly one cluster; two reports gated by the same target share a cluster, and a target is in the cluster of each report it gates; reports not linked by a chain of shared targets are in different clusters; cluster ids are 0..n-1.", "quantifier": "every scan, every set of targets, every address order", "why_tests_cant": "All match graphs and address orders.", "anchors": ["include/lmb.hpp: SILMB::cluster", "include/connectedcomponents.hpp"]}
{"id": "C26", "title": "The spatial index always lists exactly the live targets", "statement": "After any sequence of predict, correct and read-only calls the index contains every live target exactly once, with its current bounding box, and nothing else; no freed target is ever accessed.", "quantifier": "every history of predict/correct calls, every sensor, every random outcome of sampling, every memory allocator", "why_tests_cant": "Use-after-free and stale index entries depend on histories.", "anchors": ["include/targettree.hpp: TargetTree_", "include/lmb.hpp: SILMB::predict, correct", "include/cluster.hpp: Cluster_::correct"]}
{"id": "C27", "title": "Target ids are unique and never reused", "statement": "Ids are handed out in increasing order, no two live targets share an id and no id is given twice, as long as fewer than 2^32 targets were created.", "quantifier": "every history of tracker calls", "why_tests_cant": "History property; the wrap-around is far out of reach of a test.", "anchors": ["include/targettree.hpp: TargetTree_::new_target"]}
{"id": "C28", "title": "Only viable targets survive", "statement": "After predict every live target has existence probability at least r_lim and position uncertainty at most cov_lim; after correct the same holds for every target that was in a cluster.", "quantifier": "every history of tracker calls", "why_tests_cant": "History property.", "anchors": ["include/target.hpp: Target_::viable", "include/lmb.hpp: SILMB::predict", "include/cluster.hpp: Cluster_::correct"]}
{"id": "C29", "title": "Births are bounded by the sensor's birth rate", "statement": "The existence probabilities of the targets born in one correction sum to at most lambdaB, each is at most rB_max, each had at least r_lim before capping, and no birth happens when the total birth weight is below r_lim.", "quantifier": "every scan and every association result", "why_tests_cant": "Depends on all possible weights.", "anchors": ["include/lmb.hpp: SILMB::birth"]}
{"id": "C30", "title": "Parallel execution does not change the result", "statement": "The result of a correction (which targets exist, their probabilities and densities, report weights, index content) is the same for every interleaving of the parallel cluster updates; only the order of births (hence which newborn gets which id) may differ.", "quantifier": "every interleaving of the critical sections and cluster computations", "why_tests_cant": "Schedules cannot be enumerated by running.", "anchors": ["include/lmb.hpp: SILMB::correct, birth", "include/cluster.hpp: Cluster_::correct", "include/omp.hpp: CRITICAL, PARFOR"]}
{"id": "C31", "title": "Area queries count exactly the targets in the area", "statement": "enof_targets(area), nof_targets(area, r) and get_targets(area) range over exactly the live targets whose bounding box meets the area; the versions without area range over all live targets.", "quantifier": "every history and every area", "why_tests_cant": "Combines index correctness with history.", "anchors": ["include/lmb.hpp: SILMB::enof_targets, nof_targets, get_targets"]}
{"id": "C32", "title": "Evaluation calls leave the tracker unchanged", "statement": "ospa, gospa and pos_phd do not change targets or index, so later calls behave as if they had not been made.", "quantifier": "every history containing evaluation calls, every coordinate transformation with rounding or projection error", "why_tests_cant": "Needs the interplay of a later removal with a box that changed meanwhile.", "anchors": ["include/lmb.hpp: SILMB::ospa, gospa, pos_phd", "include/targettree.hpp: TargetTree_::remove"]}
{"id": "C33", "title": "Concurrent tracker calls are safe", "statement": "predict and correct may be called from different threads at the same time without accessing freed targets (the Python binding releases the GIL for both).", "quantifier": "every interleaving of the critical sections of two concurrent calls", "why_tests_cant": "Rare interleavings.", "anchors": ["include/lmb.hpp: SILMB::predict, correct, cluster", "include/sensors.hpp: PositionSensor::get_targets", "lmb/lmb.cpp: Tracker bindings"]}
{"id": "C34", "title": "The position PHD carries at most the expected number of targets", "statement": "The entries of pos_phd are non-negative and sum to at most the sum of existence probabilities of the targets whose box meets the area.", "quantifier": "every history, area, grid size and every random sample", "why_tests_cant": "Random samples and all grids.", "anchors": ["include/lmb.hpp: SILMB::pos_phd"]}
{"id": "C35", "title": "OSPA is between 0 and the cutoff", "statement": "For non-negative cutoff c and order p >= 1 ospa returns a value between 0 and c.", "quantifier": "all target and truth sets of at most 30 elements", "why_tests_cant": "A bound over all point sets.", "anchors": ["include/lmb.hpp: SILMB::ospa"]}
{"id": "C36", "title": "OSPA is the minimum over all assignments", "statement": "ospa returns the OSPA distance: the minimum over all assignments of the p-mean of cut-off distances.", "quantifier": "all target and truth sets, all p", "why_tests_cant": "Tests use at most one target; the fault needs two targets (p = 2) or three (any p).", "anchors": ["include/lmb.hpp: SILMB::ospa", "include/rlapjv.h: lap (C.data() of a column-major matrix)"]}
{"id": "C37", "title": "GOSPA is the minimum over all partial assignments", "statement": "gospa returns (min over partial assignments of sum of d^p over pairs + c^p/2 per unassigned element)^(1/p).", "quantifier": "all target and truth sets, all p", "why_tests_cant": "Tests use at most one target; the fault needs three.", "anchors": ["include/lmb.hpp: SILMB::gospa", "include/rlapjv.h: lap (C.data() of a column-major matrix)"]}
{"id": "C38", "title": "Mixture weights are normalised", "statement": "After normalize, correct, join or a non-empty prune the component weights sum to 1, or the mixture is empty when the total was at most 1e-8; ratios between weights are kept.", "quantifier": "every mixture with non-negative weights", "why_tests_cant": "All mixtures.", "anchors": ["include/gm.hpp: GM::normalize, correct, prune, join"]}
{"id": "C39", "title": "Join keeps the heaviest components", "statement": "Joining yields at most MAX_COMPONENTS components, in non-increasing order of scaled weight, each an input component; every component left out is no heavier than every one kept, and it stops early only at a component lighter than cw_lim of the weight so far.", "quantifier": "every list of mixtures and non-negative weights", "why_tests_cant": "A k-way merge over arbitrary lists.", "anchors": ["include/gm.hpp: GM::join"]}
{"id": "C40", "title": "Prune keeps the heaviest components above the limit", "statement": "prune removes every component below cw_lim, keeps the MAX_COMPONENTS heaviest of the rest in decreasing order and normalises; the sum of two mixtures does this with the components of both.", "quantifier": "every mixture", "why_tests_cant": "All mixtures.", "anchors": ["include/gm.hpp: GM::prune, operator+"]}
{"id": "C41", "title": "Untruncated join preserves the mixture mean", "statement": "If join drops nothing, the mean of the result is the weighted average of the input means, and its covariance obeys the law of total covariance.", "quantifier": "every list of mixtures and weights", "why_tests_cant": "An algebraic identity over all inputs.", "anchors": ["include/gm.hpp: GM::join, mean, cov"]}
{"id": "C42", "title": "Sampling a mixture writes every requested column", "statement": "sample_pos fills all columns of the result with samples of this mixture and never writes outside it.", "quantifier": "every mixture whose weights sum to 1 and every number of columns", "why_tests_cant": "Rounding down each share leaves columns unwritten only for particular weights (for instance three equal ones).", "anchors": ["include/gm.hpp: GM::sample_pos", "include/lmb.hpp: SILMB::pos_phd"]}
{"id": "C43", "title": "A mixture's box contains the boxes of its components", "statement": "The local bounding box of a mixture contains the bounding box and the mean of each component, and is the smallest such box.", "quantifier": "every non-empty mixture", "why_tests_cant": "All mixtures.", "anchors": ["include/gm.hpp: GM::update_local_bbox"]}
{"id": "C44", "title": "Covariances stay symmetric positive semi-definite", "statement": "Prediction with positive semi-definite Q and correction with positive definite measurement covariance keep a component's covariance symmetric positive semi-definite, and a correction never increases it.", "quantifier": "all dimensions, all matrices", "why_tests_cant": "Matrix inequality over a continuum.", "anchors": ["include/gaussian.hpp: Gaussian_::linear_update, correct"]}
{"id": "C45", "title": "The Kalman correction is the Bayesian posterior", "statement": "The corrected mean minimises the sum of the prior and measurement Mahalanobis distances (it satisfies the normal equations), and the corrected covariance is the inverse of the summed information matrices.", "quantifier": "all dimensions, all positive definite covariances", "why_tests_cant": "Algebra over all matrices.", "anchors": ["include/gaussian.hpp: Gaussian_::correct"]}
{"id": "C46", "title": "Splitting a prediction interval changes nothing", "statement": "Predicting with the constant velocity model from t0 to t1 and then to t2 gives the same mean, covariance and existence probability as predicting from t0 to t2 directly.", "quantifier": "all times, states, covariances, noise levels and survival probabilities", "why_tests_cant": "A semigroup law over a continuum.", "anchors": ["include/models.hpp: CV::operator()", "include/gaussian.hpp: Gaussian_::linear_update"]}
{"id": "C47", "title": "Axis-aligned boxes: intersects and within are exact", "statement": "Two well-formed boxes intersect exactly when they share a point, intersects is symmetric, and within(x) holds exactly for the points between the corners; the four-number constructor always yields a well-formed box.", "quantifier": "all boxes and points", "why_tests_cant": "All coordinates.", "anchors": ["include/bbox.hpp: AABBox::AABBox, intersects, within"]}
{"id": "C48", "title": "The box of a Gaussian spans nstd standard deviations per axis", "statement": "AABBox(x, P, nstd) extends nstd*sqrt(P(0,0)) along the first axis and nstd*sqrt(P(1,1)) along the second.", "quantifier": "all covariances", "why_tests_cant": "Tests use only multiples of the identity, where the two axes cannot be told apart.", "anchors": ["include/bbox.hpp: AABBox::from_gaussian", "include/report.hpp: GaussianReport_::llaabbox"]}
{"id": "C49", "title": "The oriented box of a Gaussian contains its confidence ellipse", "statement": "All points within nstd Mahalanobis distance are inside BBox(x, P, nstd) and hence inside its aabbox.", "quantifier": "all covariances and points", "why_tests_cant": "A continuum of points.", "anchors": ["include/bbox.hpp: BBox::from_gaussian, aabbox"]}
{"id": "C50", "title": "Point-in-box test is exact for axis-aligned boxes", "statement": "For a box made from an axis-aligned box, within(x) holds exactly for min <= x < max in both coordinates (half open).", "quantifier": "all boxes and points", "why_tests_cant": "Boundary cases for all coordinates.", "anchors": ["include/bbox.hpp: BBox::BBox(AABBox), within"]}
{"id": "C51", "title": "Oriented box intersection is symmetric", "statement": "a.intersects(b) equals b.intersects(a).", "quantifier": "all pairs of boxes", "why_tests_cant": "The asymmetric case is a 'swiss cross' with one orientation; the test checks the other.", "anchors": ["include/bbox.hpp: BBox::intersects"]}
{"id": "C52", "title": "Local frames are rigid", "statement": "ned2ecef and ecef2ned are mutually inverse for every origin, the rotation is orthonormal, so lengths are preserved.", "quantifier": "all points and origins", "why_tests_cant": "A continuum.", "anchors": ["include/cf.hpp: nedrot, ecef2ned, ned2ecef"]}
{"id": "C53", "title": "Surface positions lie on the ellipsoid", "statement": "ll2ecef and ne2ecef always return points on the WGS-84 ellipsoid, and ll2ecef agrees with lla2ecef at altitude 0; a point's own local coordinates are zero.", "quantifier": "all positions and origins", "why_tests_cant": "A continuum.", "anchors": ["include/cf.hpp: ll2ecef, lla2ecef, ne2ecef, ll2ne"]}
{"id": "C54", "title": "Longitude survives conversion to Earth-centred coordinates and back", "statement": "ecef2ll(ll2ecef(ll)) returns the longitude of ll exactly, for latitudes strictly between -90 and 90 and longitudes in (-180, 180], and mirroring the point at the equator negates the latitude.", "quantifier": "all positions", "why_tests_cant": "A continuum; the test checks one position.", "anchors": ["include/cf.hpp: ll2ecef, ecef2ll"]}
{"id": "C55", "title": "Particle resampling takes place", "statement": "After a correction a particle filter target is resampled, so its weights are uniform again and its box follows the particles.", "quantifier": "every history of particle filter calls", "why_tests_cant": "The validity flag is history state; the filter still produces plausible numbers.", "anchors": ["include/pf.hpp: PF::valid, resample, update_local_bbox"]}
{"id": "C56", "title": "Joining particle sets keeps the heaviest particles", "statement": "join keeps the N heaviest particles of all inputs, in non-increasing order of scaled weight, normalised.", "quantifier": "all particle sets and weights", "why_tests_cant": "All inputs.", "anchors": ["include/pf.hpp: PF::join, prepare_sort"]}
{"id": "C57", "title": "Python pickling round trips", "statement": "Unpickling a pickled BBox, AABBox (with min <= max), Target summary or report restores all readable attributes.", "quantifier": "all objects reachable through the Python API", "why_tests_cant": "All values; element order in the tuple matters.", "anchors": ["lmb/lmb.cpp: py::pickle blocks"]}
{"id": "C58", "title": "Per-cluster statistics report hypotheses", "statement": "The Python attribute cluster_nhyps lists the number of hypotheses per cluster.", "quantifier": "every correction", "why_tests_cant": "No test reads the attribute.", "anchors": ["lmb/lmb.cpp: line 207", "include/lmb.hpp: SILMB::cluster_nhyps"]}
{"id": "C59", "title": "Every live target has a normalised density", "statement": "After any history of predictions and corrections, every live target's mixture has between 1 and 200 components with non-negative weights that sum to 1.", "quantifier": "every history of predict and correct calls with any Gaussian operations, sensor noise and scans of at most n reports, where 200(n+1)*1e-8 < r_lim and cw_lim <= 1", "why_tests_cant": "An empty or unnormalised density needs a chain of unlikely reports; an existence probability above r_lim hides it.", "anchors": ["include/lmb.hpp: SILMB::predict, correct, birth", "include/target.hpp: Target_::correct", "include/gm.hpp: GM::join, normalize"]}
{"id": "C60", "title": "Oriented box intersection is exact", "statement": "a.intersects(b) holds exactly when the two oriented boxes share a point.", "quantifier": "all pairs of boxes", "why_tests_cant": "Wrong answers need boxes that cross without a corner inside the other, or diagonals whose prolongations meet in one box.", "anchors": ["include/bbox.hpp: BBox::intersects"]}
{"id": "C61", "title": "Boxes of point sets are the smallest boxes", "statement": "AABBox::from_points and BBox::aabbox return the smallest axis-aligned box that contains all the points, respectively corners.", "quantifier": "all non-empty point sets and all oriented boxes", "why_tests_cant": "All point sets.", "anchors": ["include/bbox.hpp: AABBox::from_points, BBox::aabbox"]}
{"id": "C62", "title": "Surface positions survive the round trip to Earth-centred coordinates", "statement": "For every position on the ellipsoid ecef2lla and ecef2ll return the latitude to within 1e-12 degrees (about 0.1 micrometre) and an altitude within 1e-6 m of 0; a position taken to its own local frame and back is within 2e-12 degrees.", "quantifier": "all latitudes from -90 to 90 degrees and all longitudes", "why_tests_cant": "The approximation has two branches and a correction step; a wrong constant shows only as a loss of accuracy at some latitudes.", "anchors": ["include/cf.hpp: ecef2lla, ecef2ll, ll2ecef, ne2ll, ll2ne"]}
{"id": "C63", "title": "A missed detection favours particles out of view", "statement": "After a miss the particle weights are proportional to weight times (1 - pD), and the returned likelihood is the sum of these.", "quantifier": "all particle sets and detection probabilities", "why_tests_cant": "The likelihood looks right and the weights still sum to 1; only the distribution is wrong.", "anchors": ["include/pf.hpp: PF::missed"]}
{"id": "C64", "title": "The effective number of particles is between 1 and N", "statement": "For normalised weights neff() lies between 1 and the number of particles.", "quantifier": "all particle sets", "why_tests_cant": "All weights.", "anchors": ["include/pf.hpp: PF::neff"]}
{"id": "C65", "title": "Moments of a particle set", "statement": "The mean lies within the range of the particles in every coordinate and the covariance is symmetric and positive semidefinite.", "quantifier": "all particle sets and dimensions", "why_tests_cant": "All sets.", "anchors": ["include/pf.hpp: PF::mean, cov"]}
{"id": "C66", "title": "Particle weights over histories", "statement": "Over any history of predictions, corrections, misses, joins and frame changes no array is read out of bounds, the weights stay N non-negative numbers, and after each normalising call they sum to 1 or the density is marked lost.", "quantifier": "all histories of calls", "why_tests_cant": "Histories.", "anchors": ["include/pf.hpp: PF"]}
{"id": "C67", "title": "Prediction keeps covariances valid for any two times", "statement": "A prediction of the constant-velocity model from any time to any other time keeps every covariance symmetric positive semi-definite; the same for the model with constant noise.", "quantifier": "all times, noise levels and densities", "why_tests_cant": "Negative variances need reports with time stamps out of order and show only after several steps.", "anchors": ["include/models.hpp: CV::operator(), NM::operator()", "include/gaussian.hpp: Gaussian_::linear_update"]}
{"id": "C68", "title": "The position PHD is defined for every area", "statement": "pos_phd is defined behaviour for every area with real corners, grid and sample.", "quantifier": "all histories, areas, grids and samples", "why_tests_cant": "An area without width or height is unusual; the conversion of an infinite number to int gives some index on most machines.", "anchors": ["include/lmb.hpp: SILMB::pos_phd"]}
{"id": "C69", "title": "A sensor detects what lies in its field of view", "statement": "A target all of whose samples lie inside the sensor's field of view is detected with the sensor's detection probability.", "quantifier": "all fields of view, origins of the local frame and samples", "why_tests_cant": "The default field of view is hardly used in tests; the loss of detections near edges looks like noise.", "anchors": ["include/sensors.hpp: PositionSensor, pD", "include/bbox.hpp: BBox::nebbox, within", "include/gaussian.hpp: Gaussian_::overlap"]}
{"id": "C70", "title": "The global box of a target contains its position", "statement": "Turning an axis-aligned box around the origin of a local frame into latitude and longitude gives a box that contains the origin.", "quantifier": "all origins and boxes", "why_tests_cant": "Tests use a few places; the date line is not among them.", "anchors": ["include/bbox.hpp: AABBox::llaabbox"]}
{"id": "C71", "title": "The value of a prediction", "statement": "After any history, a prediction turns every live target into exactly the target with the survival probability multiplied into r, each component moved by the motion model in the frame at the target's position, weights kept, and new boxes; exactly those of them that pass the limits stay, under the same address.", "quantifier": "all histories, motion models and time steps forward", "why_tests_cant": "Composition of frame change, model, pruning and index over histories.", "anchors": ["include/lmb.hpp: SILMB::predict", "include/target.hpp: Target_::predict", "include/gm.hpp: GM::linear_update, transform_to_local, transform_to_global", "include/models.hpp: CV, NM"]}
{"id": "C72", "title": "The value of a correction", "statement": "After any history, a correction turns the tracker's targets into exactly: clusters by shared gates; per cluster the posterior of its targets from the best hypotheses (existence probabilities, mixtures cut and normalised, boxes) and birth weights of its reports; the fit ones stay, targets in no cluster are unchanged; the newborns are those of the birth weights.", "quantifier": "all histories, scans, sensors and schedules of the parallel loops", "why_tests_cant": "Composition of index, clustering, ranking, mixtures, threads and births over histories.", "anchors": ["include/lmb.hpp: SILMB::correct, birth", "include/cluster.hpp: Cluster_::correct", "include/target.hpp: Target_::correct", "include/gm.hpp: GM::correct, missed, join"]}
{"id": "C73", "title": "A correction keeps targets near their reports", "statement": "When the targets and reports of a cluster are close together on the Earth, the corrected targets are close to them.", "quantifier": "all clusters and places", "why_tests_cant": "Needs a cluster across the date line.", "anchors": ["include/cluster.hpp: Cluster_::center_of_mass, transform_to_local, transform_to_global", "include/cf.hpp: ll2ne, ne2ll"]}
{"id": "C74", "title": "The vectorised row scan agrees with the plain one", "statement": "For every row with a finite reduced cost the scan compiled with AVX2 and the plain scan both return the smallest reduced cost with a column where it occurs, and the smallest among the other columns with such a column (or infinity if there is none).", "quantifier": "all matrices with finite or infinite costs, all column prices the solver can have, all rows and numbers of columns", "why_tests_cant": "the vector code only runs with 100000 columns or more on machines with AVX2; lanes, merging and the remaining columns interact", "anchors": ["include/rlapjv.h: find_umins_plain, find_umins"]}
{"id": "C75", "title": "Covariances stay positive definite over histories", "statement": "After any history of predictions and corrections every component of every target has a positive definite covariance, the matrix inverted when it is corrected by any report is positive definite and invertible, and the covariance of the whole density and its position block are positive definite.", "quantifier": "all histories with predictions forward in time, all noise levels, scans of at most n reports, sensors, coordinate maps and schedules", "why_tests_cant": "A covariance that loses rank or symmetry needs a particular chain of corrections, joins and predictions.", "anchors": ["include/gaussian.hpp: Gaussian_::correct, linear_update", "include/gm.hpp: GM::join, cov, poscov", "include/report.hpp: GaussianReport", "include/models.hpp: CV, NM", "include/lmb.hpp: SILMB::predict, correct, birth"]}
{"id": "C76", "title": "A missed detection favours components out of view", "statement": "When a target is updated without any report, the weights of its components become proportional to w_i (1 - pD_i), where pD_i is the probability that the sensor detects component i.", "quantifier": "all reachable targets, all sensors", "why_tests_cant": "The existence probability is right; only the distribution among several components is wrong, and only if the sensor sees some of them better than others.", "anchors": ["include/gm.hpp: GM::missed", "include/target.hpp: Target_::match, correct"]}
{"id": "C77", "title": "The parallel loops of a correction are free of data races", "statement": "When a correction runs its loops over clusters, reports, components, hypothesis rows and births in parallel, no two iterations access the same memory at the same time, one of them writing.", "quantifier": "all reachable trackers, scans, numbers of components, samples and hypotheses, and all schedules of the threads", "why_tests_cant": "A race gives a wrong result only on rare schedules, and the shared random number generator gives plausible numbers when it is corrupted.", "anchors": ["include/lmb.hpp: SILMB::correct, birth", "include/cluster.hpp: Cluster_::correct", "include/target.hpp: Target_::match", "include/gm.hpp: GM::correct", "include/statistics.inc: gen, ndist", "include/omp.hpp: PARFOR, CRITICAL"]}
{"id": "C78", "title": "Calls from several threads do not deadlock", "statement": "Whatever calls are made from any number of Python threads, every execution can always continue until all calls have returned, and the number of steps is bounded.", "quantifier": "all numbers of threads, sequences of calls, data and schedules", "why_tests_cant": "A deadlock needs one particular order in which the interpreter lock and the critical sections are taken.", "anchors": ["include/lmb.hpp: SILMB, CRITICAL(ttree)", "include/cluster.hpp: Cluster_::correct", "include/sensors.hpp: PositionSensor::get_targets", "lmb/lmb.cpp: call_guard<gil_scoped_release>"]}
{"id": "C79", "title": "The assignment solver works in double arithmetic", "statement": "With IEEE doubles the solver reads no array out of bounds, terminates, reports success exactly when an assignment without infinite costs exists, and then returns such an assignment.", "quantifier": "all row-major matrices of doubles with at most 30 rows and fewer than 100000 columns whose entries are +infinity or of absolute value at most 2^300", "why_tests_cant": "Rounding breaks the invariants of the algorithm (prices, reduced costs, complementary slackness); an endless loop or a column -1 would need costs of very different size.", "anchors": ["include/rlapjv.h: rlap, lap, find_umins"]}
{"id": "C80", "title": "The assignment is optimal in double arithmetic", "statement": "With IEEE doubles the assignment returned has the least total cost.", "quantifier": "as C79", "why_tests_cant": "Needs costs of very different size.", "anchors": ["include/rlapjv.h: rlap, lap"]}
{"id": "C81", "title": "The rounds of the assignment solver are bounded by the size of the matrix", "statement": "For every number of rows and columns there is a bound on the rounds of the augmenting row reduction that holds for all costs.", "quantifier": "all feasible matrices with at most 30 rows", "why_tests_cant": "Random matrices need few rounds; the bad ones have nearly equal costs and one much larger one.", "anchors": ["include/rlapjv.h: rlap, augmenting row reduction"]}
{"id": "C82", "title": "Murty's ranking draws every assignment once in double arithmetic", "statement": "With IEEE doubles the draws of a Murty object read no array out of bounds and return; each draw is an assignment of all rows to distinct columns without an infinite entry, whose reported cost is the exact total up to 2^(a-42); no assignment is drawn twice; a draw fails only when all have been drawn, and then all later draws fail.", "quantifier": "all row-major matrices of doubles with at most 30 rows and fewer than 100000 columns whose entries are +infinity or of absolute value at most 2^a, -900 <= a <= 299; all numbers of draws; whatever element the queue has on top", "why_tests_cant": "A sub-problem lost or kept twice by rounding shows up only after many draws on matrices with nearly equal costs.", "anchors": ["include/murty.hpp: MurtyState, Murty::draw", "include/rlapjv.h: lap"]}
{"id": "C83", "title": "Murty's draws have non-decreasing costs in double arithmetic", "statement": "With IEEE doubles no draw has a lower reported cost than an earlier one.", "quantifier": "as C82, with a queue that has a best element on top", "why_tests_cant": "Needs costs whose differences vanish in the sums.", "anchors": ["include/murty.hpp: Murty::draw", "include/rlapjv.h: lap"]}
{"id": "C84", "title": "Existence probabilities stay in [0,1] in double arithmetic", "statement": "With IEEE doubles the association step of a cluster returns, and afterwards every existence probability is a number between 0 and 1, and every birth weight too.", "quantifier": "all cost matrices of doubles for 1 to 30 targets with entries +infinity or of absolute value at most 2^a (-900 <= a <= 299); all existence probabilities before; every order in which rows and columns are added up; every non-negative exponential", "why_tests_cant": "Depends on how the quotients of a row round; most rows add up to at most 1.", "anchors": ["include/cluster.hpp: Cluster_::correct", "include/target.hpp: Target_::correct"]}
{"id": "C85", "title": "Association probabilities in double arithmetic are the marginals", "statement": "With IEEE doubles the association probabilities are within 2^-20, existence probabilities within 2^-18 and birth weights within 2^-19 of the marginals of the hypotheses used, each weighted by exp(-total cost); these are different assignments, and all of them unless nhyp_max or w_lim stopped the loop.", "quantifier": "all cost matrices of doubles for 1 to 30 targets with entries of absolute value at most 2^15 or +infinity (the code's own infinity is 30000); every summation order; every exponential with relative error at most 2^-40 on [-700,700]; total weight between 2^-600 and 2^900", "why_tests_cant": "Rounding errors of the solver, the ranking, the exponential and the sums add up over up to 2^20 hypotheses.", "anchors": ["include/cluster.hpp: Cluster_::correct", "include/target.hpp: Target_::correct"]}
{"id": "C86", "title": "Corrections in double arithmetic keep targets that fit their reports", "statement": "With IEEE doubles a correction with reports that fit all targets does not delete the targets: the total weight of the hypotheses is a positive number.", "quantifier": "all cost matrices of doubles as in C85", "why_tests_cant": "Needs many targets with precise reports at once, or a very small clutter density.", "anchors": ["include/cluster.hpp: Cluster_::correct", "include/target.hpp: Target_::correct"]}
{"id": "C87", "title": "The motion models move targets as they say", "statement": "The constant velocity model moves each position by dT times its velocity, keeps velocities and weights, gives the covariance of x + dT v plus noise of intensity q integrated over dT, and multiplies the existence probability by pS^dT with dT = (time - last)/tscale; CV::predict returns the mean so moved. The other model keeps means and weights, adds Q to the covariance and multiplies the existence probability by pS.", "quantifier": "all times, states, covariances, noise levels and positive survival probabilities", "why_tests_cant": "A wrong entry of F or Q is invisible for states with zero velocity or particular covariances.", "anchors": ["include/models.hpp: CV::operator(), CV::predict, NM::operator()", "include/gaussian.hpp: Gaussian_::linear_update"]}
{"id": "C88", "title": "The summaries of the targets can be read", "statement": "In the vector returned by get_targets, x, P, w, id and cid of each summary are those of its target, and the member r is its existence probability.", "quantifier": "all numbers of targets, every way a vector may grow", "why_tests_cant": "A dangling reference usually still shows the old value.", "anchors": ["include/target.hpp: TargetSummary_", "include/lmb.hpp: SILMB::get_targets", "lmb/lmb.cpp: Target"]}
{"id": "C89", "title": "Normalising and sampling a mixture in double arithmetic", "statement": "With IEEE doubles normalising leaves weights between 0 and 1 that add up to 1 within (4n+4) 2^-53, each its share of the exact sum up to that relative error; sample_pos then writes no column out of bounds, leaves at most one column per component unset, and each component gets its share of the columns, one too few at most (up to rounding).", "quantifier": "all mixtures of at most 2^20 weights between 0 and 2^900 whose sum exceeds 1e-8; up to 2^29 columns", "why_tests_cant": "An overrun by one column needs weights whose rounded shares add up to more than the number of columns.", "anchors": ["include/gm.hpp: normalize, sample_pos"]}
{"id": "C90", "title": "Predicting in double arithmetic keeps the existence probability at most 1", "statement": "With IEEE doubles Target_::predict turns an existence probability between 0 and 1 into one between 0 and 1.", "quantifier": "all mixtures with normalised weights, all survival factors between 0 and 1, all existence probabilities", "why_tests_cant": "Depends on how the sum of the normalised weights rounds.", "anchors": ["include/target.hpp: Target_::predict", "include/gm.hpp: normalize"]}
{"id": "C91", "title": "The costs of a target are numbers in double arithmetic", "statement": "With IEEE doubles the probability of being missed is not negative, no cost of a target is NaN, and each cost is minus the logarithm of the exact factor within (11n+60) 2^-32, or infinite where that factor is at most 1.01e-8.", "quantifier": "all targets with normalised weights, all detection probabilities between 0 and 1, all sample counts and likelihoods", "why_tests_cant": "The sum of rounded weights exceeds 1 only for particular weights.", "anchors": ["include/gm.hpp: missed, correct", "include/target.hpp: Target_::match, false_target", "include/sensors.hpp: PositionSensor::pD"]}
{"id": "C92", "title": "An update in double arithmetic gives the posterior existence probabilities", "statement": "With IEEE doubles the update of a cluster, from mixtures and likelihoods to existence probabilities, gives Bayes' posterior existence probabilities up to a small error when no hypothesis is left out.", "quantifier": "all clusters of 1 to 30 targets, all mixtures, reports, existence, detection and clutter values; accurate exponential and logarithm", "why_tests_cant": "A single NaN in the cost matrix needs particular weights, and the result is then wrong without an error.", "anchors": ["include/cluster.hpp: Cluster_::correct", "include/target.hpp: Target_::match, Target_::correct", "include/gm.hpp: missed, correct"]}
{"id": "C93", "title": "Samples of a Gaussian have its mean and covariance", "statement": "nrand maps independent standard normals by a root of the covariance and moves them to the mean: whatever decomposition the eigenvalue solver returns, every column has the mean and the covariance of the Gaussian, and different columns are not correlated.", "quantifier": "all dimensions, means, positive semi-definite covariances, numbers of columns, all orthonormal eigenvector decompositions, all probability spaces with a generator of mean 0 and variance 1", "why_tests_cant": "Moments of a random result can only be estimated by tests.", "anchors": ["include/statistics.hpp: nrand", "include/gaussian.hpp: sample"]}
{"id": "C94", "title": "The overlap with a box estimates its probability without bias", "statement": "Gaussian_::overlap, the share of its samples that lie in a box, has the probability of the box under the Gaussian as its expected value p and the variance p (1 - p) / N, where N is the number of samples; the detection probability computed from it is right on average.", "quantifier": "all Gaussians of four states, all boxes, all fields of view, all numbers of samples, all probability spaces with independent groups of normals", "why_tests_cant": "A bias is below the noise of any test with random samples.", "anchors": ["include/gaussian.hpp: overlap", "include/sensors.hpp: PositionSensor::pD"]}
{"id": "C95", "title": "A correction in double arithmetic leaves a covariance", "statement": "With IEEE doubles Gaussian_::correct turns a symmetric positive definite covariance into a symmetric positive definite one, for every positive definite covariance of the report.", "quantifier": "all symmetric positive definite covariances of a target with four states and of a report, all orders of adding up a product", "why_tests_cant": "Whether a variance cancels to a negative number depends on the last bits of the gain.", "anchors": ["include/gaussian.hpp: correct", "include/sensors.hpp: PositionSensor::H"]}
{"id": "C96", "title": "A correction in double arithmetic gives the Kalman mean", "statement": "With IEEE doubles, for a target whose two axes are uncorrelated, Gaussian_::correct moves every coefficient of the mean as the Kalman filter does, within 2^-53 of the old mean plus 2^-49 of the exact move. If the axes are correlated and 1 - rho^2 of the innovation is at least 1/K, the error is at most 2^-53 of the old mean plus 2^-47 K^2 times the deviation of the coefficient times the sum of |innovation| / deviation over both coordinates.", "quantifier": "all means, reports and covariances with magnitudes between 2^-200 and 2^200 (off the diagonal also 0; with correlated axes between 2^-100 and 2^100), all orders of adding up a product", "why_tests_cant": "An error bound for all inputs cannot be sampled.", "anchors": ["include/gaussian.hpp: correct", "include/sensors.hpp: PositionSensor::measurement"]}
{"id": "C97", "title": "The texts of the objects are JSON", "statement": "What repr writes for a Gaussian, a target summary, a report, a list of reports, a mixture, a target, a cluster, the tracker, a particle set or a box is a JSON text exactly if the numbers of the object are finite; it then has one reading, an object with the documented keys and the numbers as printed. Two trackers with the same text have the same targets: ids, cluster ids, last actions and printed digits. The text of an AABBox is never JSON.", "quantifier": "all objects with any number of states, components, targets and reports; all ways of printing numbers by which finite numbers are JSON numbers and others print as inf, nan, -inf or -nan", "why_tests_cant": "Separators and brackets depend on the number of elements and nesting; a test parses a few texts, and cannot show that no number that is not finite slips through or that the reading is unique.", "anchors": ["include/gaussian.hpp: repr", "include/target.hpp: repr", "include/report.hpp: repr", "include/gm.hpp: repr", "include/cluster.hpp: repr", "include/lmb.hpp: repr, print", "include/pf.hpp: repr", "include/bbox.hpp: repr", "include/constants.hpp: eigenformat"]}
{"id": "C98", "title": "A correction is close to the exact multi-target posterior", "statement": "Whatever the limits, the association, existence and birth probabilities that a correction of a cluster computes differ from those of the exact posterior (every target absent, missed or the cause of one report, no report with two causes) by at most the larger of two shares of the evidence: the joint fates left out, and the impossible choices that the code's infinity of 30000 lets in. The fates used are the most likely ones. If only w_lim stopped the loop, existence and birth probabilities are within K w_lim (1 + z) or z, K being the number of joint fates and z at most the number of hypotheses times exp(-30000) L^(M-1) / evidence. An existence probability below 1e-6 is replaced by 0.", "quantifier": "every cluster of 1 to 30 targets with likelihoods of any size, every w_lim and nhyp_max, every choice of the priority queue among equals", "why_tests_cant": "The exact posterior has exponentially many terms; how far a truncated one is from it cannot be tested for all likelihoods.", "anchors": ["include/cluster.hpp: Cluster_::correct", "include/target.hpp: match, correct, false_target", "include/constants.hpp: inf"]}
{"id": "C99", "title": "Correcting clusters apart changes a probability by at most that of a crossing", "statement": "The tracker corrects each cluster on its own. Number the targets and reports of one cluster first, and call a crossing a joint fate in which a target of the cluster caused a report outside it or a target outside caused a report of the cluster. Then the exact posterior of the cluster alone says of its own targets and reports (which target caused which report, was missed, exists; which report is new) what the exact posterior of the whole scene says, up to the posterior probability of a crossing in the scene. If every likelihood across is 0 the two are equal. So the existence and birth probabilities that a correction computes are within the bound of C98 plus the probability of a crossing of the exact ones of the scene, before an existence probability below 1e-6 is replaced by 0.", "quantifier": "every scene, every part of its targets and reports taken as a cluster (of 1 to 30 targets for the corrected values), likelihoods of any size", "why_tests_cant": "A test compares one scene at a time, and the posterior of a scene has exponentially many terms; the bound holds for all scenes and all ways to cut them.", "anchors": ["include/lmb.hpp: correct, cluster", "include/cluster.hpp: Cluster_::correct", "include/target.hpp: match, correct"]}
{"id": "C100", "title": "A corrected mixture has the density of Bayes' rule", "statement": "Take a mixture with positive definite covariances and a report with positive definite covariance. If correct does not clear the mixture, then at every state y the density of the corrected mixture is the density before, each component weighted by the detection probability estimated for it, times the normal density of the report given y, divided by the clutter density and by the number that correct returns. If the detection probability is the same for all components this is Bayes' rule: prior times likelihood, normalised.", "quantifier": "every mixture, report, sensor and state", "why_tests_cant": "A statement about densities at every point of a continuous space, for every mixture.", "anchors": ["include/gm.hpp: correct, normalize", "include/gaussian.hpp: correct", "include/report.hpp: likelihood"]}
{"id": "C101", "title": "Joining loses at most the share of the weight dropped", "statement": "Let join mix densities with weights w_j and keep the heaviest components. For every event (anything to which a component gives a probability) the probability under the joined mixture differs from sum_j w_j P_j / W by at most the share of the total weight W that was dropped; the number left in eta is (1 - share) W. The share is at most the fraction of components dropped, and at most cw_lim times their number unless the limit of 200 components was reached. If no component is dropped, every expectation is exactly the weighted one.", "quantifier": "any number of mixtures of any sizes with non-negative weights, every order of equal weights, every cw_lim", "why_tests_cant": "The bound is over all events and all mixtures.", "anchors": ["include/gm.hpp: join, normalize", "include/target.hpp: correct"]}
{"id": "C102", "title": "Prediction in double precision keeps a covariance symmetric and positive definite", "statement": "The constant velocity model, run in IEEE doubles, takes a symmetric positive definite covariance to a symmetric positive definite one. (Refuted; with magnitudes that are neither tiny nor huge: every coefficient is within 2^-50 of the exact one, relative to the sum of the absolute values that go into it; only the covariance of the two positions can lose its symmetry, and only when the axes are correlated; the result is positive definite, also as read from its lower half, when the exact one is so by more than 2^-47 of the uncorrelated variances.)", "quantifier": "every covariance, time step and noise level, every order in which Eigen adds up products", "why_tests_cant": "Rounding errors depend on all bits of 12 numbers; the failures need particular last bits.", "anchors": ["include/models.hpp: CV::operator()", "include/gaussian.hpp: linear_update"]}
{"id": "C103", "title": "Prediction in double precision moves the mean along its velocity", "statement": "The constant velocity model, run in IEEE doubles, leaves the velocities as they are and takes each position to within 2^-51 (relative to the absolute values of position and way, plus 2^-1074) of position plus time step times velocity; the result is finite.", "quantifier": "every mean up to 2^200, every time step that is 0 or between 2^-60 and 2^60, every order in which Eigen adds up products", "why_tests_cant": "A bound for all doubles.", "anchors": ["include/models.hpp: CV::operator()", "include/gaussian.hpp: linear_update"]}
{"id": "C104", "title": "Likelihoods in double precision", "statement": "The likelihood of a report for a component, computed in IEEE doubles, is finite and, within 30 standard deviations, equals the exact density of the innovation up to a relative error of 2^-39 + 2^-47 K^2 (1 + q), where q is the squared distance and 1/K bounds 1 - rho^2 of the innovation from below; farther away both are at most 2^-640 divided by the root of the determinant, and not negative.", "quantifier": "every mean, symmetric positive definite covariance and report with magnitudes 0 or between 2^-100 and 2^100, K up to 1000, every order in which Eigen adds up products, every exp and pow accurate to 40 bits", "why_tests_cant": "The error depends on all bits of 20 numbers, and the exponential amplifies it.", "anchors": ["include/report.hpp: likelihood", "include/gaussian.hpp: correct"]}
{"id": "C105", "title": "Correction of a mixture in double precision", "statement": "GM::correct, run in IEEE doubles from means, covariances and report, returns the evidence of the report up to a relative error of 2^-36 K^2 + (3n + 12) 2^-53 for n components, gives every component its exact posterior share of the weight up to a relative error of 3 2^-36 K^2 + (5n + 30) 2^-53 (plus 2^-150), and moves its mean and covariance as the exact correction does, up to rounding; or it clears the mixture and returns 0, and then the evidence is at most 1.02e-8.", "quantifier": "every mixture of up to 2^20 components with magnitudes as in the previous property, every detection probability, number of samples in view and clutter density of at least 2^-50", "why_tests_cant": "A bound for all mixtures; tests compare with a tolerance on a few.", "anchors": ["include/gm.hpp: correct, normalize", "include/gaussian.hpp: correct", "include/report.hpp: likelihood"]}
{"id": "C106", "title": "Existence probabilities in double precision from means and covariances", "statement": "The update of a cluster, run in IEEE doubles from the means, covariances and weights of the targets and the means and covariances of the reports, with a detection probability of at most 1 - 2^-20, gives association, existence and birth probabilities that equal the marginals of the hypotheses used, weighted with the exact product over the targets of existence, detection and Gaussian density relative to clutter, up to 2^-18 plus, for each target with n components, (44 n + 240) 2^-32 + 2^-33 K^2; the hypotheses used are all whose factors exceed 1.02e-8, or nhyp_max, or one of them has, up to this error, a share of at most w_lim.", "quantifier": "every cluster of up to 30 targets and 90000 reports with magnitudes as for the likelihood (K up to 1000), every number of samples in view, every order in which Eigen adds up, every order of equal costs in the queue, every exp, log and square accurate to 40 bits; total weight between 2^-600 and 2^900", "why_tests_cant": "It joins Kalman filter, mixtures, assignment costs, ranking and normalisation, each with rounding; a test compares single cases with a tolerance.", "anchors": ["include/cluster.hpp: Cluster_::correct", "include/target.hpp: Target_::match", "include/gm.hpp: correct", "include/report.hpp: likelihood", "include/murty.hpp: draw"]}
{"id": "C107", "title": "Joining mixtures in double precision", "statement": "GM::join, run in IEEE doubles, returns at most 200 components whose weights are between 0 and 1 and add up to 1 up to (4k + 4) 2^-53 for k components. The probability that they give to anything differs from that of the exact weighted mixture of all mixtures by at most the dropped part of the weight plus (4k + 10) 2^-53. The dropped part is at most the number of dropped components times cw_lim unless 200 components are kept, and at most their share of the number of components, both up to 2^-40; eta is the kept weight. Each component kept has, up to rounding, at least the part cw_lim of the weight up to it. The result is empty only when all the weight is at most 1.1e-8 times the number of components plus 1 (for cw_lim of at most 1/2). Target_::correct gives the sum of the row as existence probability, up to rounding, and joins; below 1e-6 it gives 0 and leaves the mixture.", "quantifier": "every row of weights between 0 and 2, all mixtures with weights between 0 and 1 and together at most 2^20 components, every finite cw_lim, every order in which std::sort leaves components of equal weight, every order in which Eigen adds up the row", "why_tests_cant": "The order of the queue, the stop test and all weights are rounded; a test compares single cases with a tolerance.", "anchors": ["include/gm.hpp: join, normalize", "include/target.hpp: Target_::correct"]}
{"id": "C108", "title": "Correcting a cluster in doubles gives the mixtures that Bayes' rule gives", "statement": "Cluster_::correct, run in IEEE doubles on the means, covariances and weights of the targets and on the reports, returns for every target an existence probability and a mixture when the association returns. The existence probability is near the sum of the target's marginals under the exact weights of the hypotheses used (existence, detection and Gaussian density of the report relative to clutter). Below 1e-6 it is 0 and the mixture is left alone. Otherwise the mixture has at most 200 components with weights that add up to 1 up to rounding, and the probability it gives to anything differs from that of the exact mixture, in which a component corrected by report j weighs the marginal of j times its exact share of the density of j, and a component left alone weighs the marginal of a miss, by at most what joining drops plus (4k + 10) 2^-53 plus 4 (N + 1) (2^-20 + 6 e) / r, with e the error of the log factors (as in the update from Gaussians). Means and covariances are those of the exact Kalman correction up to rounding. The mixture is empty only when r is at most 1.2e-8 (n (N + 1) + 1) + 2 (N + 1) (2^-20 + 4 e).", "quantifier": "all clusters of 1 to 30 targets and up to 90000 reports with finite, definite, not fully correlated covariances and coefficients neither tiny nor huge; at most 2^20 components over the reports of a target; any order of equal heap entries and of equal weights, any rounding-accurate exp, log, square and order of summation; nhyp_max up to 2^20; total weight of the hypotheses in [2^-600, 2^900]", "why_tests_cant": "It joins association, Kalman correction and merging, each with rounding and with components and hypotheses dropped; a test compares single cases with a tolerance.", "anchors": ["include/cluster.hpp: Cluster_::correct", "include/target.hpp: Target_::match, Target_::correct", "include/gm.hpp: correct, join, normalize", "include/gaussian.hpp: Gaussian_::correct"]}
{"id": "C109", "title": "The density of a target at points adds up to its existence probability", "statement": "Target_::pos_phd adds to the value of each point the existence probability times, for each component, the weight times the point's Gaussian density divided by that of all points; a component whose densities at the points add up to at most 1e-7 adds nothing. What is added is not negative and adds up over the points to at most the existence probability times the weights, and to just that when no component is left out. The call throws exactly when the position block of a covariance is not positive definite.", "quantifier": "every mixture with symmetric covariances, every list of points and every vector of values of the same length, exact arithmetic", "why_tests_cant": "The value of a point depends on all points and components; a test compares single cases.", "anchors": ["include/target.hpp: Target_::pos_phd", "include/gm.hpp: sampled_pos_pdf", "include/gaussian.hpp: sampled_pos_pdf"]}
{"id": "C110", "title": "A cluster of at most five targets is corrected in doubles whatever the parameters", "statement": "With IEEE doubles Cluster_::correct of at most five targets returns and reads nothing out of bounds, finds at least one hypothesis, and the total weight of the hypotheses is a number between 2^-600 and 2^900: it neither overflows nor underflows, for all values of w_lim and of nhyp_max up to 2^20. So no target is lost to a weight of zero or infinity (as C86 shows for more targets), and every target is corrected as C108 says.", "quantifier": "1 to 5 targets, up to 90000 reports, every scene of C106 and C108 (means, covariances, weights, numbers of samples in view), any queue that pops a top element, any w_lim, nhyp_max up to 2^20, any order of summation", "why_tests_cant": "The weights are products over targets whose factors range over 190 powers of two, and the first hypothesis drawn is the best only up to rounding; a test sees single scenes.", "anchors": ["include/cluster.hpp: Cluster_::correct", "include/murty.hpp: Murty::draw", "include/target.hpp: Target_::match, Target_::correct", "include/gm.hpp: correct"]}
{"id": "C111", "title": "The reported mean and covariance of a target are accurate in doubles", "statement": "GM::mean and GM::cov, computed in IEEE doubles, return numbers (no infinity or NaN). Each coefficient of the mean differs from the exact weighted mean by at most (2n + 2) 2^-53 times the weighted mean of the absolute values plus n 2^-1074. Each coefficient of the covariance differs from the exact weighted covariance about the exact mean by at most (2n + 12) 2^-53 times the sum of the absolute values of its parts (with the mean off by at most its error) plus n 2^-1072 plus a term of second order that comes from centring on the rounded mean. A coefficient and its mirror image are exactly equal when they are so in every component, and no variance on the diagonal is negative when none is in the components.", "quantifier": "all mixtures of at most 2^20 components with weights in [0, 1] (whatever their sum), finite means up to 2^200 and finite covariance coefficients up to 2^400", "why_tests_cant": "Every coefficient is a sum of up to 2^20 rounded terms around a mean that is itself rounded; a test compares single mixtures with a tolerance.", "anchors": ["include/gm.hpp: mean, cov", "include/lmb.hpp: get_targets"]}
{"id": "C112", "title": "Targets are kept or removed as the limits say, in doubles", "statement": "Target_::viable, computed in IEEE doubles, compares the existence probability with r_lim and the Frobenius norm of the position covariance with cov_lim. The computed norm is a number and differs from the norm of the exact covariance about the exact mean by at most 11 * 2^-53 times that norm plus twice the rounding errors of the four coefficients (as in the property about reports) plus 2^-535. So a target that is kept has r >= r_lim and an exact norm of at most cov_lim plus this error, and a target that is removed has r < r_lim or an exact norm above cov_lim minus this error.", "quantifier": "all mixtures of at most 2^20 components with weights in [0, 1], finite means up to 2^100 and covariance coefficients up to 2^200, all finite limits and existence probabilities, any order of adding up the four squares", "why_tests_cant": "The decision depends on a norm of sums of up to 2^20 rounded terms; a test sees single mixtures, rarely one near the limit.", "anchors": ["include/target.hpp: Target_::viable", "include/gm.hpp: poscov, cov, mean"]}
{"id": "C113", "title": "The axis-aligned boxes of Gaussians and mixtures hold their targets in doubles", "statement": "In IEEE doubles the box of AABBox::from_gaussian consists of numbers and holds the mean exactly, whatever the rounding; its edges differ from the mean minus and plus nstd standard deviations in the frame given by the eigenvalues, cosines and sines by at most 12 * 2^-53 (|x| + d) + 2^-390. The box of GM::update_local_bbox covers the boxes of all components exactly and is the smallest that does so: each of its edges is an edge of one of them. AABBox::intersects is true exactly when two boxes have a point in common.", "quantifier": "all means up to 2^200, all eigenvalues in [0, 2^300] and cosines and sines in [-1, 1] that solver and library may return, all nstd in [0, 2^20], mixtures of any size but the empty one", "why_tests_cant": "That the mean stays inside depends on the rounding of every edge; a test sees single boxes.", "anchors": ["include/bbox.hpp: AABBox::from_gaussian, AABBox::intersects", "include/gm.hpp: update_local_bbox"]}
{"id": "C114", "title": "Pruning and adding mixtures keeps the heaviest components in doubles", "statement": "In IEEE doubles GM::prune keeps components in falling order of weight, at most 200: every one kept reaches cw_lim, and every one dropped is below cw_lim or, when 200 are kept, not heavier than any of them. If the weights kept add up to 1.01e-8 or more, the components keep their means and covariances and each weight becomes its share of the exact sum, a number in [0, 1], up to a relative error of (4n + 4) 2^-53 plus 2^-1075; the new weights add up to 1 within (4n + 4) 2^-53. If they add up to less than 0.99e-8 nothing is left; in between either happens. operator+ and operator+= do this with the components of both mixtures.", "quantifier": "all mixtures of any size with weights in [0, 2^900], all finite limits, any sort that orders by weight", "why_tests_cant": "Which components stay depends on all weights, and the shares on rounded sums; a test sees single mixtures.", "anchors": ["include/gm.hpp: prune, operator+, operator+=, normalize"]}
{"id": "C115", "title": "The overlap with a box does not depend on the threads and is accurate in doubles", "statement": "Given which of its 1000 samples lie within the box, Gaussian_::overlap returns in IEEE doubles the number nearest to the share of samples within, a number in [0, 1], however the threads of the reduction divide the samples; it is 1 only when all samples are within and 0 only when none is. GM::overlap returns a number that is not negative and differs from the mean by weight of the shares by at most (2n + 4) 2^-53 times that mean plus n 2^-1073, in whatever order it is added up.", "quantifier": "all outcomes of the 1000 samples, all mixtures of at most 2^20 components with weights in [0, 1], any order of summation", "why_tests_cant": "The order of a parallel reduction differs from run to run; a test sees single orders.", "anchors": ["include/gaussian.hpp: overlap", "include/gm.hpp: overlap"]}
