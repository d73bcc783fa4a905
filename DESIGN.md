# Design: a Coq model of the clmb tracker

Source: `/repo` (C++17 headers in `include/`, Python binding in `lmb/lmb.cpp`).
The code is read as text; nothing is compiled or run.  Properties are in
`properties.jsonl` (C01 ...), results in `MANIFEST.json`.

## 1. Approach

* Every modelled function is an executable Gallina definition (over lists,
  `nat` and an abstract number type) with a comment citing file and lines.
* Number type.  Algorithms that only add, subtract, compare (assignment solver,
  Murty, R-tree) are written once over a record of operations `Num T`
  (file `Scalar.v`).  Proofs use the instance `ext R`: real numbers with
  +inf, -inf and NaN following the IEEE rules for these special values, but no
  rounding.  Tests (`Example`s by computation) use `ext Z` or Coq's primitive
  IEEE doubles.  Code that uses exp, log, sqrt, sin uses Coq's reals.
* Undefined behaviour is an outcome.  Monad `res A := Ok a | UB | OutOfFuel`.
  Out-of-bounds array access, use of an uninitialised index, access to a freed
  target, signed overflow are `UB`.  Loops without an obvious bound take fuel
  and return `OutOfFuel` when it runs out; termination theorems say that some
  fuel suffices.
* Unspecified choices of the C++ library are parameters: which of several
  equal elements a priority queue returns, the order of equal elements after
  `std::sort`, the address returned by `new`, random numbers, the interleaving
  of OpenMP threads.  Theorems quantify over them.
* Template parameters of the code (PDF, Sensor, Model of `SILMB`) are records
  of functions over which the theorems quantify.
* Files: model `X.v`, specification `XSpec.v` (definitions in terms of inputs
  and outputs only), proofs `XProofs.v`, and the property theorems in
  `Props*.v` (only `Theorem ... exact lemma` and `Print Assumptions`), with
  `Example`s showing non-trivial inputs that satisfy the hypotheses.

## 2. Per property

| Id | Model and proof | 
|----|-----------------|
| C01, C02, C03 | `ConnectedComponents` as sorted association list of sorted sets; DFS loop with fuel; invariant "result + stack has no duplicates and is closed"; C03 is refuted by a two-node graph |
| C04-C07 | the R-tree as an inductive tree with levels, the complete insert/split/remove/reinsert code; refinement to a multiset of (box, id); C07 proved in exact arithmetic, refuted for IEEE doubles with boxes of area above 2^53.  `RTreeFloat.v`: the same theorems for IEEE doubles of absolute value up to 2^25, every operation rounded (Flocq's account of the primitive floats); the rounded volume is monotone in the box and subtracting 1 from it is not lost |
| C08 | explicit-stack iterator, invariant: visited + pending = all entries |
| C09 | writer and reader over a token stream, round trip by induction on the tree |
| C10-C13 | `lap`/`rlap` with arrays as lists; invariant: dual feasibility, complementary slackness, locked columns (price -inf) are forced in every feasible assignment; termination by a limit argument |
| C14 | model of the `int` subset counter; refuted at 31 rows |
| C74 | the lanes of the vector registers as a list of four states; a state knows the two smallest over a set of columns, kept by every step and by merging; C10-C13 are proved for any scan with this property |
| C15-C18 | `MurtyState`, `draw`; invariant: the queue entries partition the assignments not yet drawn and carry lower bounds |
| C19-C24 | the matrix part of `Cluster_::correct` and the scalar part of `Target_`, costs from Murty, weights by `exp`; C24 refuted with an `exp` that underflows; the whole tracker with mixtures, sensor and motion models in `TrackerOps.v`, C19 as an invariant of its histories |
| C25 | `SILMB::cluster` on top of the connected-components model |
| C26-C28, C31 | `SILMB` state: heap of targets, target list, R-tree, id counter; all API calls as transitions; invariant over histories |
| C32 | `Eval.v`: ospa, gospa and pos_phd as calls that move every density to a frame and back, mixed histories of calls and evaluations; refuted with nine targets on the equator and the frame change of `Cf.v`: the index keeps boxes from before the evaluation, a removal with the new box finds nothing, the freed target stays in the index and is read by the next correction |
| C29 | `SILMB::birth` over reals |
| C30 | interleavings of the three sections of each cluster update (remove / compute / put back) and of births; commutation |
| C33 | interleavings of predict and correct; refuted; races between calls in the access model of C77 |
| C34, C68 | `pos_phd` (`Eval.v`) over arbitrary samples, the cell index computed with division and truncation, a conversion of infinity, NaN or an index out of range is UB; C68 refuted for areas without extent |
| C35-C37 | `Metric.v`: cost matrices of ospa/gospa over R, the storage order seen by `lap`, the assignment model of C10-C14; the value is tied to a matching by the optimality proof of `lap`; minimum refuted with witnesses, bounds proved |
| C38-C43 | mixtures as lists of weighted components |
| C44, C45 | `Kalman.v`: MathComp matrices of any dimension over any ordered field; Joseph form for positive semi-definiteness, completion of the square for the minimum, two factorisations of a block matrix for the determinants in Bayes' rule; `RField.v` makes the standard reals an instance |
| C46, C67 | `CV.v`: explicit 4x4 matrices over R; C67 refuted for predictions back in time, proved forwards |
| C47-C51, C60, C61 | boxes over R (`Box.v`), `atan2` over R (`Trig.v`); the eigenvalue decomposition is any one that meets its specification; the point-in-box test via cross products of corners; C48, C51, C60 refuted |
| C52-C54, C62 | coordinate formulas over R (`Cf.v`), divisions by 0 and arguments outside the domains of asin, acos and sqrt give `None`; algebra for the exact laws; the first guess of Olson's latitude is bounded by interval arithmetic with Taylor models over the whole latitude range (`CfOlson*.v`), the correction step by the mean value theorem (`CfNewton.v`) |
| C55, C56, C63-C66 | particle filter (`PF.v`): weights over R, states abstract; the priority queue of `join` with an invariant: per set one entry, everything chosen is at least as heavy as every entry; C55 refuted by an invariant over histories, C63 by a witness |
| C59 | the same composition; a target whose density is lost has existence probability below r_lim and is removed |
| C69, C70 | `View.v`: fields of view and boxes between frames with the formulas of `Cf.v`; both refuted, proved around points of the equator |
| C71, C72 | the composition of `TrackerOps.v`; `StepSpec.v` describes the outcome of a call without the model's functions: mean positions, clusters, best hypotheses, mixtures, newborns |
| C73 | on top of C72 with frame changes that act on positions as `Cf.v` does; refuted by a run of two corrections at the date line |
| C75 | `GaussOps.v` fills the record of operations with matrices over the reals (Kalman step, CV and NM, newborns); `CompSpec.v` says what a predicate on components must satisfy to hold after every history; positive definiteness does |
| C76 | on top of C72: a cluster without reports; refuted with a history of two reports that leaves a target with two components |
| C77 | `Access.v`: reads and writes of a correction with its parallel loops and critical sections, for any data, in a small language of threads and locks (`Race.v`); refuted (random number generator); ownership argument for everything else |
| C78 | the same model, calls from any number of threads; locks are taken in ascending order |
| C79 | `FloatExt.v`: doubles as extended reals with rounding; `LapHom.v`: the solver commutes with maps that preserve its operations; `LapRnd*.v`: invariants that survive rounding (bounded prices, a measure on the finitely many doubles, Hall's condition for the search) |
| C80 | refuted by computation on a 2 x 2 matrix of doubles; partial: error analysis of both phases (LapRndArr, LapErrDij, LapErrMain), parametrised by a set of numbers closed under the sums that occur and the error of one sum: each search enlarges the slack of the reduced costs by a factor n+1 plus rounding, weak duality turns the slack into a distance to the optimum; with error 0 (costs on a grid) the result is optimal |
| C81 | `LapSlow.v`: a state of the loop that comes back every four rounds with prices lowered by 2; refuted |
| C82 | `MurtyHom.v`: states, partitions and children commute with maps that preserve the operations; `MurtyRnd.v`: with rounding, a child is left out only if it has no assignment (a row dual that is not below infinity means that the row has no alternative), sums are off by at most rows * 2^(b-48); `MurtyFloatMain.v`: every assignment is drawn or in exactly one queued sub-problem; the shift by the smallest entry and the offset |
| C83 | refuted by computation on a 2 x 2 matrix of doubles; partial: the error analysis of C80 carried through partitioning (MurtyRnd) and the queue (MurtyFloatMain): the key of an unsolved node exceeds the cost of its members by at most the slack of its duals plus the rounding of the sums, so the top of the queue is near the best remaining; with error 0 (costs on a grid) it is the best |
| C84 | `ClusterFloat.v` models the hypothesis loop, the division and `Target_::correct` in doubles; `FloatSum.v`: sums of non-negative doubles in any order have a small relative error; `ClusterFloatLoop.v`: the loop adds up different assignments from Murty's ranking (C82); `ClusterFloatNum.v`, `ClusterFloatMain.v`: a cell is at most the total, rows and columns add up to at most 1 plus rounding; refuted by computation (`ClusterFloatWitness.v`) |
| C85 | `ClusterFloatClose.v`: each weight is close to the exponential of the exact total (the cost is off by at most 2^(a-42)), and so are shares, entries, rows and columns |
| C86 | refuted by two draws computed for ten targets, the exponential being arbitrary but accurate; `ClusterFloatRange.v`: bounds of the total weight |
| C87 | `CV.v` (model), `CVSpec.v`: `moved` and `stayed` give each coefficient; by computation |
| C88 | `Summary.v` models the objects, the references and the storage of the vector; invariant over the elements appended: objects before the last change of storage refer to freed blocks, the others to themselves |
| C89 | `GMFloat.v` models weights, normalising, sampling, prediction and the costs in doubles; `GMFloatProofs.v`: relative error of the sum and the quotients, the conversion to unsigned; the shares written add up to less than cols + 1, hence at most cols |
| C90 | refuted by computation; `GMFloatMatch.v`: the sum of normalised weights is at most 1 + (6n+5) 2^-53 |
| C91 | refuted by computation and the logarithm of a negative number; `GMFloatMatch.v`, `GMFloatCost.v`: error of each product, sum and logarithm; the posterior's factors are defined in `GMFloatSpec.v` |
| C92 | refuted by a run with tables of the logarithm and exponential (`GMFloatWitness.v`); `GMFloatBayes.v`: the weight of a hypothesis is the product of the exact factors up to a factor exp(slack), combined with C85 |
| C93, C94 | `Sample.v`: `nrand` on a stream of generator values, any eigenvector decomposition; expected values are any linear monotone functional (`SampleSpec.v`); a space of independent coins meets the hypotheses (`SampleWitness.v`) |
| C95, C96 | `KalmanFloat.v`: `correct` coefficient by coefficient in doubles, sums in any order; with uncorrelated axes every sum has one term that is not zero, so the order does not matter (`KalmanFloatMain.v`); error analysis of one axis (`KalmanFloatErr.v`); C95 refuted by computation; correlated axes: sums of two terms, errors relative to sizes (`ap`, `PredictFloatProofs.v`) through the 2 x 2 inverse (`KalmanCorr.v`), sizes from the Cauchy inequality |
| C97 | `Repr.v`: texts as strings, printing of one number a parameter; `JsonSpec.v`: the grammar of RFC 8259 as an inductive relation, proved unambiguous (`JsonProofs.v`); only finite numbers: outside of its strings a JSON text has no i and as many a as f (`ReprOnly.v`); `ReprMain.v` |
| C98 | exact posterior over the fates of the targets (`PosteriorSpec.v`), without cost matrix or columns; the hypotheses used in `Cluster.v` correspond to fates except those with an impossible choice (`PosteriorProofs.v`); two measures with a common part differ by at most the larger remainder (`shared_part`) |
| C99 | the posterior of C98 for a scene and for a cluster of it, the cluster's targets and reports numbered first (`SplitSpec.v`); the fates that do not cross are pairs of a fate of the cluster and one of the rest and their weight is the product (`whole_joint`, `split_joint`, `whole_weight`), so the posterior given no crossing is that of the cluster; with C98 by the triangle inequality. How likely a crossing is depends on the gate and is not bounded here |
| C100 | `gm_correct` of `GM.v` with the Kalman step of `GaussOps.v`; the density of a mixture is a separate definition (`MixSpec.v`); component by component from C45's density identity |
| C101 | `join` of `GM.v`; dropped and kept weights from C39, two measures with a common part (`shared_part`) |
| C102, C103 | `PredictFloat.v`: the matrices of `CV` and `linear_update` coefficient by coefficient in doubles; exact prediction and magnitudes in `PredictFloatSpec.v`; every sum has at most two terms that are not zero, so the order does not matter (`sum_pair`, `PredictFloatProofs.v`); errors relative to a size (`ap`), definiteness from the Cauchy inequality (`PredictFloatMain.v`); C102 refuted by computation |
| C104, C105 | `LikFloat.v`: `likelihood` in doubles; `MixFloat.v`: `GM::correct` with likelihoods, means and covariances computed; exact density, precision matrix and evidence in `LikFloatSpec.v`, `MixFloatSpec.v`; the error of the quadratic form is bounded by its sum of absolute values, which is at most 4 K times the form (`qz_le`), then through `exp` (`exp_step`, `exp_far`) and the root; shares by `share_close` with the bounds on `normalize` of C89 |
| C106 | `SceneFloat.v`: the update of a cluster from means and covariances, on top of `MixFloat.v` and `GMFloat.v`; exact factors from densities in `SceneFloatSpec.v` (`described`); every cost against its factor by `mixture_close` and `times_r` (`report_close`), then the general bound on marginals `bayes_gen` that C92 also uses |
| C107 | `JoinFloat.v`: `GM::join` with priority queue, stop test and normalisation and `Target_::correct`, in doubles, with `std::sort` as any function that sorts lists of numbers; `JoinFloatSpec.v` compares with the exact weighted mixture (`mixed`, `joined`, `kept`); order of the queue in `JoinFloatOrder.v` (the proof of C39's loop over the values of doubles), rounding of products, sums and quotients in `JoinFloatProofs.v` |
| C108 | `StepFloat.v`: `Cluster_::correct` in doubles from means and covariances to means and covariances (C106's association, the mixtures left by `Target_::match`, then C107's `Target_::correct` with each row of association probabilities); `StepFloatSpec.v` compares with the exact blend of corrected mixtures (`bayes_mixture`, `blend`, `updated`); `StepFloatProofs.v` shows that a cleared mixture has an infinite cost and so marginal 0, that the others are near Bayes' mixture (C105), and carries the errors of the marginals (C106) through the join (C107) |
| C109 | `PosPdf.v`: `Target_::pos_phd` with Cholesky factor, forward substitution and normalisation over the points, an exception a distinct outcome; `PosPdfSpec.v` has the Gaussian density by Cramer's rule and definiteness as a quadratic form.  The values are shares of the points given, not densities: a single point gets the whole existence probability unless its density is at most 1e-7 |
| C110 | `FewTargetsProofs.v`, on the model of C108: the first draw is near the best assignment (C83), which is no worse than every target missed or absent, so its weight is at least e^-250; no factor is above 2^168 (density at most 2^117, clutter at least 2^-50), so at most 2^20 hypotheses of five targets add up to less than 2^900.  With these facts C108 needs no condition on the outcome of the association |
| C111 | `MeanFloat.v`: `GM::mean` and `GM::cov` coefficient by coefficient in doubles.  `MeanFloatSpec.v` states the exact weighted mean and covariance over the reals.  `MeanFloatProofs.v`: a left fold of floats, each near an exact term, is near the exact sum (invariant over the list); the covariance about the rounded mean is then moved to the exact mean by an identity.  Symmetry and sign hold exactly because rounding is a function and monotone |
| C112 | `ViableFloat.v`: `Target_::viable` on the covariance of C111; Eigen's norm is the rounded square root of the four rounded squares added in any order.  `ViableFloatSpec.v` states the exact norm.  `ViableFloatProofs.v`: square roots of near numbers are near, and the norm changes by at most the sum of the changes of the coefficients.  Observed, not claimed as a bug of reachable states: with a component at infinity the norm is NaN and the target is kept whatever the limit (`C112_not_a_number`) |
| C113 | `BoxFloat.v`: `AABBox::from_gaussian`, `GM::update_local_bbox` (the axis-aligned box) and `AABBox::intersects` in doubles; eigenvalues, cosines and sines come from an oracle `solve`, assumed to return eigenvalues that are not negative and values in [-1, 1].  `BoxFloatProofs.v`: the mean stays inside because rounding is monotone; `std::min`/`std::max` are exact, so the fold over the components gives the smallest cover.  Observed: with a negative eigenvalue (rounding of a singular covariance) the box of the component is NaN, `std::min`/`std::max` pass it over, and the box of the mixture can shrink to the position of its first component (`C113_negative_eigenvalue`); not claimed for reachable states, since C95 and C102 keep covariances definite |
| C114 | `PruneFloat.v`: `GM::prune`, `operator+` and `operator+=` in doubles; the sort is any function that orders by weight (`sorts`), as in C107. `PruneFloatProofs.v`: the filter and the truncated sorted list give the kept and the dropped components, and the normalisation lemma of C89 gives the shares; whether the sum passes 1e-8 is decided up to the rounding of the sum. A NaN weight passes the limit and spoils all weights (`C114_not_a_number`). |
| C115 | `OverlapFloat.v`: `Gaussian_::overlap` and `GM::overlap` in doubles, for both kinds of boxes; which samples are within is an input, the reductions add up in any order (`fsums`). `OverlapFloatProofs.v`: sums of ones up to 1000 are exact in any order, the quotient is rounded once; the mixture by the error of sums in any order (`fsums_fin`) and of products. |
| C57, C58 | tuple encoders/decoders of the binding (`Bind.v`), storage order of Eigen matrices; statistics vectors written in any order of clusters; C58 refuted |

## 3. Trusted base

* Coq 8.16.1's kernel (and `vm_compute` where Examples use it).
* The axioms printed by `Print Assumptions` after each theorem.  Expected: none
  for purely combinatorial theorems; for theorems over `R` the axioms of the
  standard library's reals (`ClassicalDedekindReals.sig_forall_dec`,
  `ClassicalDedekindReals.sig_not_dec`,
  `FunctionalExtensionality.functional_extensionality_dep`), possibly
  `Classical_Prop.classic` and `Epsilon`-style axioms of the standard library
  where noted; primitive float/int operations where IEEE doubles are computed.
* The hand-written correspondence between the C++ text and the Gallina text.
* The tracker (`Tracker.v`) takes the densities, the prediction of one target and
  the association within one cluster as arbitrary functions; the theorems state
  what they need of them (`sane_call`, `prob_call`, `weighted`).  Critical
  sections are atomic steps.  The address returned by `new` is any free address.
* Mixtures (`GM.v`): the Gaussian part of a component is an abstract type, its
  update an arbitrary function; `std::sort` is any sorting function; `1 - pD`
  and the scaled weights are exact.
* `TrackerOps.v` composes tracker, association and mixtures; operations on single
  Gaussians, reports and coordinates are members of a record (`ops`), the
  numbers of samples that fall into the field of view are arbitrary.
* `CfOlson*.v`, `CfNewton.v`, `CfMain.v`, `EvalGeo.v`, `ViewEquator.v`, `NearWitness.v` use the
  `interval` tactic of the Interval library; its proofs by computation add only the standard
  library's primitive 63-bit integers and floats and their axioms (`Uint63`, `PrimFloat`,
  `FloatAxioms`).
* `FloatBase.v`, `RTreeFloat.v`, `FloatExt.v`, `LapRnd*.v`, `LapFloatMain.v` use Flocq's theorems about primitive floats; they rest on the
  standard library's `FloatAxioms` (each primitive operation is the IEEE operation, rounding to
  nearest even).  The compiled program is assumed to compute in IEEE doubles without extended
  precision or contraction to fused multiply-add.
* `GMFloat.v`: the numbers of samples in view (random) and the likelihoods of the reports are inputs,
  taken as doubles without error; `std::log` is a parameter, the theorems say how accurate it must
  be (`good_log` meets it).  Conversion of a double to `unsigned` is undefined outside 0 .. 2^32 - 1.
* `ClusterFloat.v`: the cost matrix is an input (logarithms and likelihoods are not rounded here);
  `std::exp` is a parameter, the theorems say how accurate it must be (`good_exp` meets it); Eigen
  may add up rows and columns in any order and grouping; `R /= w_sum` divides each entry.
* `Race.v`, `Access.v`: accesses are single steps in some order (a race is two threads being able
  to take conflicting steps, so weaker memory orders do not matter for race-free programs);
  `critical(ttree)` excludes all threads of the process; a target's number of components is fixed
  during a call; Eigen and the standard library share no memory between objects.  Every parallel
  loop is as parallel as can be; the race on the generator needs only the outermost loop.
* Particle filter (`PF.v`): weights in exact arithmetic, loops over particles one after the
  other, `std::sort` any sorting function, coordinate and box functions arbitrary.
* Correction in doubles (`KalmanFloat.v`): Eigen's `inverse()` of a 2 x 2 matrix is the adjugate times
  the reciprocal of the determinant; a product's terms are added up in any order; no fused
  operations (Tuprules.tup sets -march=x86-64).  Likelihoods (`LikFloat.v`): `std::exp` and
  `std::pow` (for squares) are parameters, accurate to 40 bits; Eigen's `determinant()` of a 2 x 2
  matrix is the difference of two products.
* Boxes in doubles (`BoxFloat.v`): the eigenvalue solver returns eigenvalues that are not
  negative, and `std::cos`, `std::sin` values in [-1, 1]; nothing is assumed about their accuracy.
* Samples (`Sample.v`): exact arithmetic; the eigenvalue solver returns orthonormal eigenvectors;
  the hypotheses say what the generator's numbers are taken to be (mean 0, variance 1, groups
  independent); Eigen evaluates the normals of a column once.
* Distances (`Metric.v`): real arithmetic; `std::pow` is the mathematical power.
* Kalman step (`Kalman.v`): exact arithmetic; Eigen's `inverse()` is the inverse (the
  theorems show it exists); exp, sqrt and pi are the real ones.  `RField.v` adds the
  axiom `ClassicalEpsilon.constructive_indefinite_description` of the standard
  library to `C45_bayes` (mathcomp asks for a choice operator).
* `GaussOps.v`: clutter density and likelihood are positive numbers, covariances are handled in
  blocks of positions and velocities, the report carries the velocity covariance `pv` of its
  newborn.
* Evaluation (`Eval.v`): the samples of a density are arbitrary; frame changes are arbitrary functions
  except in the refutation, which uses those of `Cf.v`.
* Summaries (`Summary.v`): freed memory is not used again, so that every access to it shows; a vector moves its elements
  exactly when it grows beyond its capacity.
* Texts (`Repr.v`): a stream prints a finite double as a JSON number (C locale) and others as inf, nan,
  -inf or -nan; Eigen writes the separators of its format and nothing else (DontAlignCols).
* Bindings (`Bind.v`): pybind11's casts copy values unchanged.
* Boxes (`Box.v`): real arithmetic; `std::atan2` is the mathematical one.
* `find_umins` of `rlapjv.h` has a variant for AVX2; C10-C14 hold for both (C74).  The models of
  the other components use the portable build, which is the same below 100000 columns
  [`C13_builds_agree`].
* Not modelled: rounding of floating-point arithmetic (except where a theorem
  says IEEE), Eigen's internals, the quality of random numbers, memory
  exhaustion, printing of single numbers, pybind11, the operating system.

## 4. Disagreements between code and expectation

Machine-checked (theorem names in brackets):

* C03: connecting 1 -> 0 in one direction only reports node 0 in two components
  [`C03_one_component_per_node_refuted`].  The tracker always connects both
  directions.
* C07: in double arithmetic the seeds of a node split stay uninitialised for
  nine equal boxes of side 10^9, because -area - 1 rounds to -area
  [`C07_split_defined_refuted`].  With coordinates up to 2^25 every split is defined
  [`C07_split_defined_double_partial`]; latitudes and longitudes are far below.
* C14: the subset counter of the assignment code is an `int`: 31 rows overflow
  [`C14_any_number_of_rows_refuted`].
* C17: Murty's constructor on an empty matrix is undefined
  [`C17_empty_matrix_undefined`].
* C24: when every hypothesis weight underflows, the normalisation divides 0 by
  0 [`C24_weights_are_numbers_refuted`].
* C32: ospa, gospa and pos_phd move all targets (pos_phd: those in the area) to a
  common local frame and back.  The frames are planes tangent to the ellipsoid, so a
  position away from the centre comes back closer to it
  [`C32_position_kept_refuted`], while the index keeps the old box.  The next
  correction cannot remove the target from the index, deletes it and the one
  after reads freed memory [`C32_evaluation_harmless_refuted`].
* C33: `correct` collects the affected targets, leaves the critical section and
  then reads and writes them (clustering); a `predict` in another thread may
  free them in between [`C33_concurrent_calls_refuted`].  The Python binding
  releases the interpreter lock for both calls.  A query during a correction reads densities
  that the correction is writing [`C33_query_during_correction_races_refuted`].
* C36, C37: ospa and gospa pass a column-major Eigen matrix to a solver that reads
  it as row-major, so the assignment is optimal for the transposed matrix: three
  targets exactly on three true states get a distance of at least 10
  [`C36_ospa_is_minimum_refuted`, `C37_gospa_is_minimum_refuted`].  ospa also
  minimises the sum of distances instead of the sum of their p-th powers
  [`C36_order_two_refuted`].
* C42: `sample_pos` rounds the share of each component down, so columns at the
  end stay unwritten, e.g. one of 1000 with weights 1/3 and 2/3
  [`C42_all_columns_refuted`].
* C48: the axis-aligned box of a Gaussian has its extents exchanged: the smaller
  eigenvalue is paired with the direction of the larger one, so the first axis
  gets nstd*sqrt(P(1,1)) [`C48_extents_exchanged`, `C48_extents_refuted`].  Points
  well inside the confidence ellipse are outside the box
  [`C48_ellipse_refuted`], so reports use boxes of the wrong shape when the
  covariance is not isotropic.
* C51, C60: the test for boxes that cross without a corner inside the other
  compares a signed determinant with 1e-9, so it depends on the order of the
  two boxes [`C51_symmetric_refuted`, `C60_missed_refuted`]; and it intersects
  the lines through the diagonals without checking that the point is in the
  second box, so boxes far apart are reported to intersect
  [`C60_disjoint_refuted`].
* C55: `PF::valid` is initialised to false and nothing sets it, so the particle
  filter never resamples and its box never follows the particles
  [`C55_never_resampled`, `C55_resampled_refuted`].
* C58: the Python attribute `cluster_nhyps` shows the report counts
  [`C58_nhyps_wrong`, `C58_nhyps_refuted`].
* C63: `PF::missed` multiplies the weights by pD instead of 1 - pD, so after a
  miss the target is believed to be in view [`C63_missed_bayes_refuted`]; a target
  wholly out of view loses all weight [`C63_unseen_target_lost`].
* C67: a prediction to a time before the last one makes the process noise negative
  definite and variances negative [`C67_any_times_refuted`]; nothing checks the
  order of the times.
* C68: pos_phd of an area without width or height divides by zero and converts the
  result to `int` [`C68_phd_defined_refuted`].
* C69: the field of view is given by its four corners in latitude and longitude and is turned
  into a local box by its corners only.  For the default one (the eastern hemisphere) both
  northern corners are the pole and both southern ones the other pole, so it has no inside and
  nothing is ever detected [`C69_detects_refuted`].  (In double arithmetic cos(90 degrees) is
  6e-17 instead of 0, which leaves a strip of some nanometres.)  Around a point of the equator the
  local box is as wide as the field of view at its northern and southern edges, so that targets
  in the middle of the eastern and western edges are missed [`C69_edges_refuted`].
* C70, C73: longitudes are treated as plain numbers.  The box of a target at the date line is
  everything but the strip around it [`C70_global_box_refuted`], and the centre of a cluster
  across the date line is on the other side of the Earth, where the local positions (which are
  the same there) are taken back to: a report 112 m from a target moves the target, the report and
  the target born from it by more than 12 000 km [`C73_stays_near_refuted`].
* C76: `GM::missed` computes the probability of the miss but leaves the weights of the
  components, so the density after a miss is the one before it; with a sensor that covers
  only some of the components it is not the posterior [`C76_bayes_refuted`].
* C77: `nrand` draws from one generator and one normal distribution without a lock; clusters
  corrected in parallel use them at the same time [`C77_parallel_loops_race_free_refuted`].  It is
  the only race within a correction [`C77_parallel_loops_race_free_partial`].
* C57: an `AABBox` whose corners were set from Python out of order comes back
  reordered [`C57_aabb_round_trip` is an equivalence]; `rB` and the weight of a
  report are not pickled (they are not readable from Python).
* C80: in doubles the assignment need not be optimal when costs differ by more than 2^53. It is optimal for costs on a common grid (e.g. integers below 2^53 / (32 m)).
* C83: in doubles a later draw may have a lower cost than an earlier one (costs 5, 2^55; 2, 2^55). For costs on a common grid the ranking is exact.
* C84: in doubles an existence probability may become 1.0000000000000002 [`C84_double_existence_bounds_refuted`].
* C86: the weights exp(-cost) are not scaled before they are added up.  Ten targets that fit their
  reports at cost -72 each (or thirty at -24) give exp(720), which is infinite; R / w_sum is then 0 or NaN, the comparison
  `r >= 1e-6` of Target_::correct is false, and all targets get r = 0 [`C86_double_targets_survive_refuted`].
* C90: predict multiplies r by the sum of the weights, which rounds to 1.0000000000000002 for the
  normalised weights 1, 6, 3, 3 [`C90_double_predict_refuted`].
* C91, C92: for the same weights, all samples in view and the default pD = 1 the probability of being
  missed is -2.2e-16; its logarithm is NaN and enters the cost matrix.  The assignment solver then goes on
  without an error, and the existence probabilities of other targets are wrong as well
  [`C91_double_missed_refuted`, `C92_double_posterior_refuted`].
* C88: TargetSummary_ has a member `double& r` bound to its own `w` and no copy constructor, so a
  copy's `r` refers to the original.  Growing the vector in get_targets leaves dangling references
  [`C88_r_readable_refuted`].  The Python binding reads `w` and is not affected.
* C95: P -= K H P in doubles.  A nearly exact report (variance 2^-60 against 31) leaves a negative
  variance, whose square root in nrand and in the boxes of the tree is NaN; ordinary numbers give a matrix that
  is not symmetric in the last bit [`C95_double_covariance_refuted`].
* C102: F P F^T + Q in doubles.  Position variance 31.21, velocity variance 10.8 and covariance -18.36 (positive
  definite) become the variance -3.6e-15 after the time 1.7 with the noise 2^-60; with correlated axes the
  covariances of the two positions above and below the diagonal differ in the last bit
  [`C102_double_prediction_refuted`].
* C97: densities that are not finite (C24, C86, C91) print as nan or inf, which is not JSON, so a reader of the
  logged texts fails on them; `AABBox::repr` writes another format altogether, although `BBox::repr` writes JSON
  [`C97_texts_are_json`].  Existence probabilities and weights are printed with 6 digits, means and covariances with 15.
* C81: three rows with nearly equal costs for two columns and a large cost for the third bid
  against each other in steps of the small difference.  With costs 0 0 L / 0 1 L / 0 2 L the
  loop takes about 2 L rounds; with L = 1e15 (or L = 1000 and differences of 1e-12) it does not
  return in practice.
