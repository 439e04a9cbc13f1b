# Formal model of mikeferguson/ndt_2d in Rocq (Coq 8.16.1)

## 1. Approach

The code is C++ over `double`. Every modelled function is written **once**, as a
small total Gallina function over an abstract arithmetic `Arith T`
(`theories/Arith.v`), and instantiated twice:

* `RA : Arith R` - exact real arithmetic (Coq standard library reals). Used for
  algebraic properties; rounding is *not* modelled there and the DESIGN entry of
  each property says so.
* `BA lm : Arith b64` - IEEE-754 binary64, round to nearest even (Flocq's
  `BinarySingleNaN`), for an arbitrary mathematical library `lm` (cos, sin, exp,
  atan2, hypot, fmod are arbitrary functions; facts needed about them, such as
  `cos 0 = 1`, are explicit hypotheses).

Theorems whose statement mentions no instance hold for every arithmetic, hence
for the doubles the program runs with.

Undefined behaviour is never totalised: functions return `outcome A`
(`theories/Outcome.v`), and an out-of-range access, an unrepresentable
double-to-integer conversion, invalid iterator arithmetic, a null dereference, a
library abort or a non-terminating loop is a distinct `Fault`.

External code is modelled by its contract: Eigen's eigenvalue solver, nanoflann's
radius search, the Ceres solver, tf2 look-ups, random draws and rosbag2 storage
are function parameters, message contents or schedule labels; what is assumed
about each is an explicit hypothesis in the theorem that uses it (and a concrete
instance meeting the hypothesis is exhibited next to it).

The three threads of the node (spin, loop closure, publish) are modelled as a
labelled transition system with sequentially consistent interleaving at the
granularity of critical sections and unlocked shared accesses; "for every
schedule" is "for every list of labels".

When the faithful model violates a property a user would rely on, the violation
is proved (`..._refuted`, with a witness) and the strongest restricted version we
could prove is kept beside it (`..._partial`).

### Layout (`rocq/theories/`)

* `Outcome.v`, `Arith.v` - foundations.
* `*Model.v` - the model, one file per source file; every definition cites
  the file and lines of `/repo` it models.
* `Spec*.v` - small independent specifications (means, covariances, rigid motions, ...).
* `*Proofs.v` - lemmas.
* `Prop*.v` - only property theorems (`exact lemma`), non-vacuity examples and
  `Print Assumptions`.


## 2. Properties: what is modelled and how it is proved

* **C01 - Cell statistics equal the batch sample statistics.** Model `Cell::addPoint`/`compute` (CellModel.v); spec = batch mean / sample covariance (SpecStats.v); invariant over the op list by induction, exact reals. *Proved: exact real arithmetic; every history.*
* **C02 - Cell statistics do not depend on insertion order.** Corollary of C01: the batch statistics are permutation invariant. *Proved: exact real arithmetic.*
* **C03 - Cell covariance is a covariance matrix.** Sum-of-squares representation of the batch covariance; 2x2 information via adjugate over a positive determinant. Exact reals, eigenvalue solver = any pair with the right sum and product. *Proved: exact real arithmetic; information part under the eigenvalue contract.*
* **C04 - Cell score is a normalised likelihood.** exp of a non-positive quadratic form, from C03; the <5 branch holds in every arithmetic. *Proved: exact real arithmetic under the eigenvalue contract.*
* **C05 - Well-conditioned cell scores by the Gaussian of its sample covariance.** Case `small >= 0.001 large`: information is the matrix inverse of the batch covariance. *Proved: exact real arithmetic under the eigenvalue contract.*
* **C06 - Ill-conditioned cells are regularised to an eigenvalue ratio of 0.001.** False of the code (adjugate is divided by 0.001*large^2, so the ratio of the information eigenvalues is unchanged): `_refuted` with a witness, plus `_partial`: the score is that of the axes of the cloud with the replaced variances (`C06_score_partial`); information = adj(C)/(0.001 large^2), largest eigenvalue bounded by 1000/large. *Partial: false as stated: refuted by five collinear points; the partial theorem gives the exact relation to the regularised score.*
* **C07 - Cell score is always a number.** False in binary64 (five equal points give 0*inf = NaN): `_refuted` by computation in Flocq's binary64. *Partial: false as stated: five coincident points give NaN in binary64; cells with fewer than five points score 0 in every arithmetic, and cells whose points spread more than the rounding noise score between 0 and 1 in binary64.*
* **C08 - compute is idempotent and always brings a cell up to date.** Invariant `valid -> matrices = function of the points`; idempotence holds in every arithmetic. *Proved: every arithmetic, including binary64.*
* **C09 - The NDT never accesses a cell outside its storage.** `getIndex` in `outcome`; integer reasoning valid for every arithmetic; fault analysis of addScan/likelihood by induction over points. *Proved: every arithmetic, including binary64.*
* **C10 - The NDT covers its declared area and separates its squares.** floor arithmetic over R on the index; injectivity of gy*size_x+gx. *Proved: exact real arithmetic.*
* **C11 - Every NDT cell models exactly the scan points that fall in its square.** Refinement: cell i = fold addPoint over the filtered list of transformed points; induction over scans. *Proved: exact real arithmetic; the cell-by-cell statement in every arithmetic.*
* **C12 - NDT likelihood of point sets and scans.** Value at a point: C06 for the points of the cell (`C12_point_likelihood`). Induction over points using C04; permutation invariance of sums; equality of the two transform code paths. *Proved: exact real arithmetic, eigenvalue contract, no cell with five or more coincident points.*
* **C13 - addScans covers everything the laser can see.** Fold of min/max over scans; C10 then gives membership. *Proved: exact real arithmetic.*
* **C14 - addScans builds a map no larger than needed.** False (running maximum starts at numeric_limits<double>::min(), a positive number): `_refuted` + exact characterisation of the box built. *Partial: false as stated (the upper bound starts at the smallest positive double); the partial theorem gives the exact extent when some range reaches positive coordinates.*
* **C15 - addScans accepts an empty range.** False in binary64 (negative size converted to size_t): `_refuted`, for every cell size up to 2^900. *Partial: false as stated: undefined conversion in binary64, for every cell size up to 2^900; no positive part.*
* **C16 - A matcher without a map is inert.** Direct, every arithmetic, over all histories of reset/addScans. *Proved: every arithmetic.*
* **C17 - matchScan returns the best candidate of the search window.** Fold over the lattice in source order; running-minimum invariant. *Proved: exact real arithmetic.*
* **C18 - matchScan's score is the score of the scan at the corrected pose.** Both paths are the same rigid motion over R. *Proved: exact real arithmetic.*
* **C19 - Matching never makes the score worse.** True when size is a multiple of resolution (zero on the lattice); `_refuted` otherwise. *Partial: false as stated when the window is not a whole number of steps; proved for windows that are.*
* **C20 - Scores are normalised.** C12 bounds divided by the number of points. *Proved: exact real arithmetic, eigenvalue contract, no cell with five or more coincident points.*
* **C21 - The covariance reported by matchScan is the score-weighted covariance of the candidates.** False (sign): `_refuted`; exact characterisation K/s + uu^T/s^2 proved. *Partial: false as stated: the mean term is added, not subtracted; the partial theorem gives the exact excess.*
* **C22 - The covariance reported by matchScan is symmetric positive semi-definite.** Weighted Cauchy-Schwarz over candidate lists. *Proved: exact real arithmetic, eigenvalue contract, no cell with five or more coincident points.*
* **C23 - Beam subsampling is in range and spread over the whole scan.** Over R by floor arithmetic; in binary64 by a rounding-error bound with Flocq, which also bounds the distance of each index from the even spread. *Proved: binary64, up to 2^52 points.*
* **C24 - matchScan's results are finite.** False: empty scan gives 0/0, no overlap gives 0*(1/0): `_refuted` in binary64. Positive part: the score is finite for non-empty scans, and so is the covariance (diagonal not negative) once the score is at most -2^-200: rounding absorbs terms, so the sums stay below 2^354 however many candidates there are (`C24_covariance_partial`). *Partial: false as stated in binary64 (empty scan; map without scoring cells); score finite for non-empty scans on maps with finite likelihoods; covariance finite with a non-negative diagonal once the score is at most -2^-200.*
* **C25 - matchScan terminates.** Exact reals: number of iterations = ceil(2s/r), any fuel at least that suffices; resolution <= 0 exhausts every fuel. *Partial: proved in exact arithmetic; false in binary64 for tiny resolutions, proved there for resolution >= 2^-51 window widths.*
* **C26 - The search window with default parameters in double arithmetic.** Evaluated in binary64: 21 offsets, none exactly 0: `_refuted`, exact values proved. *Partial: false as stated: 21 linear offsets and no exact zero; the angular count 80 holds.*
* **C27 - The barycenter is always up to date.** Invariant of the dirty flag over all histories (every arithmetic) + centroid identity over R. *Proved: no staleness in every arithmetic; centroid in exact real arithmetic.*
* **C28 - A constraint reproduces the relative pose it was made from.** Rotation identities over R; 3x3 inverse by adjugate. *Proved: exact real arithmetic.*
* **C29 - A fresh constraint has zero residual.** Composition of makeConstraint with the error term; 2pi-periodicity. *Proved: exact real arithmetic.*
* **C30 - Residuals do not depend on the map frame.** Rotation identities over R. *Proved: exact real arithmetic.*
* **C31 - NormalizeAngle.** floor arithmetic over R. *Proved: exact real arithmetic.*
* **C32 - The optimizer weights residuals by the information matrix.** False for correlated information (uses L instead of L^T): `_refuted`, true for diagonal matrices `_partial`; both stated on the residual block the model hands to Ceres, with the deviation from the measured displacement as a separate spec. *Partial: false as stated: the Cholesky factor is not transposed; true exactly for diagonal information matrices.*
* **C33 - Saving and loading a map is lossless.** Bag = ordered list of (topic, message); int64/uint64 wrap modelled; round trip by induction, every arithmetic. *Proved: every arithmetic; serialisation lossless, reader keeps the order within a topic.*
* **C34 - findNearest returns the scans within the given distance.** False: nanoflann's L2 radius is a squared distance: `_refuted`; exact characterisation with the squared distance proved from the radius-search contract. *Partial: false as stated: the distance is compared with the squared distance; the partial theorem gives the exact result (nanoflann contract).*
* **C35 - findNearest honours its limit and never reads outside the graph.** Bounds reasoning over the limit expression. *Proved: bounds in every arithmetic; indices under the nanoflann contract.*
* **C36 - The graph visualisation shows the graph.** Full characterisation of the marker list by induction. *Proved: every arithmetic.*
* **C37 - Ray tracing terminates inside the rectangle of the ray.** Bresenham loop on Z with fuel; invariants for shallow/steep rays. *Proved: integer model; rays for which 2*(|dx|+|dy|) fits an int.*
* **C38 - The cell a beam ends in is marked as hit.** False for slopes between 1/2 and 1 (|dy| < |dx| <= 2|dy|): `_refuted`; exact characterisation of the hit cell for all rays proved. *Partial: false as stated for slopes between 1/2 and 1; the partial theorem gives the exact hit cell of every ray.*
* **C39 - Occupancy values.** Case analysis of the final loop; counters from the rendering fold. *Proved: exact real arithmetic; the value of a cell also in binary64.*
* **C40 - The occupancy grid contains every scan it renders.** False when a sensor pose lies outside the box of the points: `_refuted`; proved when poses lie inside the padded box. *Partial: false as stated: bounds ignore the sensor poses; proved (exact arithmetic) when the sensors lie in the padded box of the points.*
* **C41 - Rendering is memory safe after the graph changed.** False (bounds are only updated when the number of scans changes): `_refuted`. *Partial: false as stated: bounds are not recomputed when poses change; proved for histories that only add scans and for moves within the bounds.*
* **C42 - Incremental bounds equal batch bounds.** floor/ceil idempotence over R; `_refuted` in binary64 for drift; in binary64 every render moves a bound by at most one cell too much (PropOcc64.v, with C136). *Partial: proved in exact arithmetic; false in binary64 (drift by at most one cell per render).*
* **C43 - The KD-tree counts occupied bins.** Search-tree invariant: every leaf is reached by its own key; leaf count = length of the deduplicated key list. Values: the load of a bin is additive over insertions and sits in one leaf (`C43_bin_values`, exact reals). *Proved: exact and binary64 arithmetic; no overflow while keys are below 2^30; leaf values in exact arithmetic.*
* **C44 - Particle weights are a probability distribution.** Invariant over all filter operations, draws as oracle lists, exact reals. *Proved: exact real arithmetic; discrete_distribution only returns indices of positive weight.*
* **C45 - Particle count stays within its limits.** Loop with explicit fuel; invariant on the size; exits analysed. *Proved: every arithmetic, up to the faults listed; no fault in exact arithmetic for particles within 2^28 m; weights are the previous ones up to renormalisation.*
* **C46 - The filter mean and position covariance are the weighted sample statistics.** Algebra over R; atan2 range. *Proved: exact real arithmetic.*
* **C47 - The filter heading variance describes the current particles.** False (cov(2,2) is accumulated and never reset): `_refuted` + exact accumulation law. *Partial: false as stated: the entry is never reset; the partial theorems give the exact accumulation law.*
* **C48 - Resampling does not bias the estimate.** False (particles keep their weight): `_refuted`. *Partial: false as stated: drawn particles keep their weights; the partial theorems give the exact law (squared weights), unbiased for equal weights.*
* **C49 - A measurement nothing explains keeps the filter usable.** False in binary64 (0/0): `_refuted`. *Partial: false as stated for every filter (0/0); weights finite in binary64 when some score is not 0.*
* **C50 - Noise-free motion update is the odometry motion.** Trigonometric identities over R with normalize_angle from the angles package. *Proved: exact real arithmetic.*
* **C51 - Motion noise is symmetric in driving direction.** Periodicity of the angle distance; min of the two distances. *Proved: exact real arithmetic.*
* **C52 - The particle cloud message shows the particles.** atan2(2wz, w^2-z^2) = theta over R. *Proved: exact real arithmetic; tf2::getYaw as published.*
* **C53 - A failed optimization leaves the map alone.** Solver as oracle; case analysis. *Proved: every arithmetic, every solver behaviour.*
* **C54 - The first scan anchors the map.** Solver as oracle keeping constant blocks constant. *Proved: every arithmetic; the solver keeps constant parameter blocks; scan ids distinct as int.*
* **C55 - Every constraint enters the optimization exactly once.** Invariant over optimize histories; in the node: the same invariant over its steps, and the scans written back through distinct pointers. *Proved: every arithmetic, every solver behaviour.*
* **C56 - Optimization uses the loaded map.** False: nodes, constraint counter and problem survive a load: `_refuted`. *Partial: false as stated: the solver keeps the old problem; the partial theorems give the exact problem solved, correct for an unused solver.*
* **C57 - Scans are only used after enough motion.** laserCallback as a function on the mapper state. *Proved: exact real arithmetic; a rejected scan changes nothing in every arithmetic.*
* **C58 - Odometry is applied as a rigid motion.** SE(2) algebra over R. *Proved: exact real arithmetic.*
* **C59 - The published map->odom transform is consistent.** SE(2) algebra over R. The message itself: the quaternion Eigen computes is a unit quaternion about z, and fromMsg of it gives back the transform (C59_message). *Proved: exact real arithmetic; tf2 lookups and broadcasts are trusted.*
* **C60 - Range filtering.** Upright: proved. Inverted: beam 0 is dropped, `_refuted` + characterisation; empty inverted message reads out of bounds. *Partial: false as stated for inverted lasers (reading 0 dropped, empty message read out of bounds); proved for upright lasers (exact and binary64) and, for inverted ones, for the readings that are used.*
* **C61 - Scan points are finite.** False for -inf: `_refuted` in binary64. *Partial: false as stated: a reading of -inf gives a non-finite point; proved in binary64 for the other readings under size bounds.*
* **C62 - Motion compensation places static obstacles correctly.** Proved when odometry heading is 0 and no wrap; `_refuted` otherwise (displacement left in the odom frame). *Partial: false as stated; the partial theorems give the exact position of every point of a message for every constant motion: exact at rest, within one reading of turn when turning on the spot.*
* **C63 - The rolling window has rolling_depth scans.** False unless rolling_depth = 10 (constant 10 in the source): `_refuted`, incl. iterator underflow; proved for depth 10. *Partial: false as stated: the window is hard-coded to 10; proved for rolling_depth 10, exact behaviour for every depth.*
* **C64 - The pose graph stays well formed.** Invariant of the transition system. *Partial: false as stated: a map loaded between the two halves of a loop closure leaves a constraint to a missing scan; proved in every arithmetic for maps loaded while the loop-closure thread sleeps (and fewer than 2^31 scans).*
* **C65 - The graph published or optimised is always well formed.** False: the constraint is pushed before its scan under a separate lock: `_refuted` by a schedule; precise bound on the window proved. *Partial: false as stated: the constraint of a laser scan is in the graph before its scan, and other threads may hold the lock in between; proved: with the guard of C64 this is the only exception.*
* **C66 - Map updates are never lost.** Invariant of the transition system (flag cleared before the snapshot). *Partial: false as stated: a scan added by an initial pose does not set the update flag; proved in every arithmetic and schedule: this is the only exception.*
* **C67 - Relocalization is required after loading a map or pausing mapping.** Invariant over request histories. *Proved: every arithmetic and schedule.*
* **C68 - Configure request decoding.** Bit arithmetic on Z. *Proved: every arithmetic; file contents are what rosbag2 returns.*
* **C69 - Initial pose handling.** Case analysis of poseCallback. *Proved: exact real arithmetic for the distance (10 is compared with the squared distance, C34); the rest in every arithmetic.*
* **C70 - Loop closures only join distant-in-time scans and are vetted.** Invariant of the loop-closure steps. *Proved: every arithmetic and schedule, loads included; assumes that nanoflann returns indices of its points.*
* **C71 - Loop closure matches against the candidate and its neighbours on both sides.** False (end iterator is exclusive): `_refuted`. *Partial: false as stated: the scan after the candidate is never used; the partial theorem gives the region used.*
* **C72 - The loop-closure acceptance threshold stays meaningful.** True for histories of non-empty scans; `_refuted` with NaN for an empty one. *Partial: false as stated: a scan without returns makes it NaN for ever; proved exactly for spread-out scans, and in binary64 for scores in the range.*
* **C73 - Thread roles.** Case analysis of the transition system. *Proved: every arithmetic and schedule; the loop-closure thread changes poses of scans.*
* **C74 - No thread deadlocks on the two mutexes.** Lock state in the transition system. *Proved: every arithmetic and schedule.*
* **C75 - The loop-closure thread never uses missing objects.** False: `_refuted` by schedules. *Partial: false as stated, both halves; proved in every arithmetic for maps loaded while the loop-closure thread sleeps and after the first laser message.*
* **C76 - Localization keeps its global map.** False: `_refuted` by a schedule. *Partial: false as stated: loop closure resets the global matcher also when the filter is used; proved in every arithmetic with mapping disabled and no requests.*
* **C77 - The published transform pairs poses of the same instant.** False for the initial-pose callback: `_refuted`; proved for laser callbacks. *Partial: false as stated: an initial pose is stored without the mutex; proved in every arithmetic when the publisher does not read in between.*
* **C78 - Optimization cadence.** False after loading a smaller map: `_refuted`; proved without loads. *Partial: false as stated: loading a smaller map wraps the unsigned difference; proved in every arithmetic without load requests.*
* **C79 - Odometry constraints describe the measured motion.** False after optimization / loop closure; proved without. *Partial: false as stated: the previous scan may have been moved by a loop closure; proved in exact arithmetic for laser messages only, and, for every history and schedule, that the constraint leads from the newest scan, where it then is, to the pose predicted by odometry and corrected by the match.*
* **C80 - When optimize is defined.** Exact characterisation of the calls that do not fault; a lone scan aborts. *Proved: every arithmetic.*
* **C81 - Free cells lie along the beam.** Error-term invariant of the loop; `_refuted` for the bound of one cell. *Partial: false as stated: up to one and a half cells on shallow rays; the partial theorem proves this bound, and half a cell for steep rays.*
* **C82 - The laser's mounting is learned once.** Induction along a run with the list of messages received; MapperSteps case analysis. *Proved: every arithmetic and schedule; laser messages have a frame name.*
* **C83 - Upside-down lasers are recognised.** `_refuted` with a rational quaternion; quadratic inequality for the other direction. *Partial: false as stated: a tilt of 4.6 degrees counts as upside down; proved that a laser counts as upside down exactly when |qx| or |qy| exceeds 0.02, so that upside-down lasers are recognised and level ones are not mistaken.*
* **C84 - One range limit for everything.** As C82; settings of a matcher = the matcher without its map. *Proved: every arithmetic and schedule.*
* **C85 - What one mapping scan does.** Forward execution of the callback, step by step, with the mutexes free. *Proved: every arithmetic; the matcher and constraint contents are those of C13-C27.*
* **C86 - Localization does not change the map.** As C85. *Proved: every arithmetic.*
* **C87 - What one filter step does.** As C85; SE(2) algebra for the motion. *Proved: every arithmetic; the motion in exact real arithmetic.*
* **C88 - What an accepted loop closure does.** As C85, for the loop-closure thread. *Proved: every arithmetic.*
* **C89 - The sweep is timed from its first to its last reading.** `_refuted` with an empty message; truncation over R. *Partial: false as stated: undefined conversion for a message without readings; proved exactly for messages with readings.*
* **C90 - Callbacks and publisher rounds finish.** Rank on the executor's program counter; strong fairness, mutex owners release after at most two steps (C74). *Proved: every arithmetic; uses excluded middle for the fairness argument; library calls are single steps.*
* **C91 - Every loop-closure pass ends.** Lexicographic measure (scans left, candidates left, program counter) on infinite executions. *Proved: every arithmetic; as C90.*
* **C92 - Every scan gets its loop-closure attempt.** `_refuted` with a map loaded twice (infinite execution built from a finite schedule and a quiet cycle); `_partial` by the invariant that scans whose turn has passed were considered. *Partial: false as stated: global_scans_processed_ is not reset when a map is loaded; proved in every arithmetic without loads.*
* **C93 - Map updates are published.** The flag stays set until the publisher clears it, and the map is read after that. *Proved: every arithmetic; as C90.*
* **C94 - The transform keeps being published.** Rank on the publisher's program counter. *Proved: every arithmetic; as C90.*
* **C95 - The graph only grows.** Step-wise extension relation on the heap of scans and the two vectors, composed along executions. *Proved: every arithmetic.*
* **C96 - Every scan is connected to the first.** Invariant on the non-switchable constraints and the number of scans, counting the half-added scan; induction along the chain for linkage. *Proved: every arithmetic; fewer than 2^31 scans.*
* **C97 - The optimizer never aborts the node.** Refuted by an interleaving evaluated in binary64; partial: invariant that the solver's nodes are a prefix of the scan ids, then the exact domain of CeresSolver::optimize (C80). *Partial: false as stated: the laser callback appends the constraint before the scan and the optimizer may run in between; proved in every arithmetic when it does not and no map is loaded.*
* **C98 - The map stays where it began.** Case analysis of every step; the optimizer by the contracts keeps_constant and keeps_nodes and the uniqueness of scan ids. *Proved: every arithmetic; under the contract of Ceres; fewer than 2^31 scans.*
* **C99 - Shared data is written under its mutex.** Lock invariant and case analysis of every step; refuted for the correction of an accepted loop closure by an evaluated race. *Partial: false as stated: the correction of a loop closure moves a scan without the mutex and an initial pose is stored without the other one; proved in every arithmetic that these are the only exceptions.*
* **C100 - Stopping the node.** LifeModel adds the while loops, rclcpp::ok() and the destructor around the node model; refuted by a fair execution without shutdown; after shutdown the round arguments of C91/C93 bring both threads to their test. *Partial: false as stated: the threads end only when rclcpp::ok() is false, so destroying the node without shutting the context down hangs; proved in every arithmetic: after shutdown both threads end and the destructor returns, and then nothing runs.*
* **C101 - Mapping off freezes the map.** One-step lemma: with mapping off and the loop closure thread asleep no step changes the graph; liveness of the pass (C91) for the eventual form; refuted by an evaluated schedule with a loop closure under way. *Partial: false as stated: a loop closure under way when mapping is switched off is still added; proved in every arithmetic: once the loop closure thread sleeps the map is frozen, which happens eventually, and a localization node never changes its map.*
* **C102 - Maps survive from session to session.** Trace invariant for the files written, 64 bit ids by invariant, C33 for the round trip, induction over sessions with C64/C96 as step. *Proved: in every arithmetic; reading a file back is assumed to keep the order within each topic.*
* **C103 - No step leaves its memory.** Every called function fails only numerically (SafeProofs); invariants for the NDTs of the matchers, the particles and the missing matcher (SafeInv), added to those of C64/C65/C75/C97; beam indices from C22/C23 in binary64; case analysis over all steps. *Proved: in binary64 for every math library, under the conditions of the statement, each of which is known to be needed (C40, C41, C63, C65, C75, C97) or excludes a number that is too large.*
* **C104 - Integer parameters.** ParamsModel converts int to size_t modulo 2^64 as the constructors do. Non-negative values arrive unchanged. Negative ones become almost 2^64: invariants over all reachable states show that a negative rolling_depth switches loop closure off and matches against the whole map, a negative optimization_node_limit switches optimization off, a global_search_limit of 0 or less lifts the limit, a negative laser_max_beams uses every point; negative particle counts make the constructor throw. *Partial: false as stated: negative values are accepted and become almost 2^64; the effect of each is proved, and that values that are not negative are used as given.*
* **C105 - Localization uses the current map.** Refuted: the matcher used when mapping is off is built once, from the map at the first laser message. C105_matcher_never_follows: no later step of any thread replaces it, in every arithmetic; a witness execution loads a second map and matches against the first. Partial: a node that is never switched to mapping and loads its maps before the first laser message matches against the map it publishes. *Partial: false as stated: the global matcher is built once at the first laser message; neither loading a map nor switching mapping off rebuilds it; proved when mapping is off throughout and maps are loaded before the first laser message.*
* **C106 - A sweep across the seam of the headings.** Refuted for every small turn across the seam: a reading from straight ahead is put behind the robot. C106_smeared gives the exact effect (reading i of n is turned by i/n of the superfluous turns); partial: when the written headings differ by at most half a turn the points depend on the poses only. *Partial: false as stated: the difference of the headings is not normalised, so a sweep across +-pi is smeared over a full turn; proved when the written headings differ by at most half a turn.*
* **C107 - The robot continues from where it was put.** Invariant over all steps of all threads, in every arithmetic: the poses in use are those of the newest ObPoses/ObInit entry of the trace. In exact arithmetic the prediction is that pose composed with the odometry motion, on a map that is not empty (partial). Refuted: on an empty map every processed message starts at the origin (C107_origin), so an initial pose is forgotten. *Partial: false as stated: while the map is empty every processed message starts at the origin, so an initial pose is forgotten; proved on maps that are not empty, and in every arithmetic that the poses in use are the ones stored last.*
* **C108 - No transform before the robot is localized.** Refuted by three executions: start from a map file, the window between adding the first scan and storing its pose, and a load. Partial, every arithmetic: if the publisher looks for scans only while the robot is localized and outside that window, and maps are not loaded while it sends, every transform follows an initial pose or a processed message in the same map. *Partial: false as stated: the publish thread only tests that the graph is not empty, so a node started from a file, in the middle of adding the first scan, or after a load publishes a transform from poses of no meaning; proved when it looks only while the robot is localized.*
* **C109 - A converged filter needs fewer particles.** Refuted in every arithmetic, for every filter with all particles in one bin: the bound is only computed for more than one bin and starts at max_particles, so max_particles are drawn. Partial, exact arithmetic: drawing stops at the first count that is enough, where enough is the KLD number of the occupied bins between minimum and maximum, or the maximum. *Partial: false as stated: with all particles in one bin max_particles are drawn, in every arithmetic; proved in exact arithmetic: with more than one occupied bin, drawing stops at the first count that reaches the KLD bound between minimum and maximum.*
* **C110 - Distant particles are in different bins.** Refuted: keys are quotients truncated toward zero, so the bins around zero are twice as wide; -0.4 m and 0.4 m share one. Partial, exact arithmetic: keys on one side of zero in the coordinate they differ in. *Partial: false as stated: the bins around zero are twice as wide; proved for keys on one side of zero, and for any number of keys that are pairwise two bin sizes apart.*
* **C111 - More turning, more noise.** Refuted: angles are folded to the nearest of driving forwards and backwards, so a half turn on the spot has no noise at all. Partial, exact arithmetic: up to a quarter turn all deviations grow, the last one as sqrt(alpha1) times the angle. *Partial: false as stated: a half turn on the spot has no noise at all; proved up to a quarter turn.*
* **C112 - Every noise parameter counts.** Refuted in every arithmetic: alpha5 is never read. Partial, exact arithmetic: the deviations are monotone in the other four, and for each there is a motion (turning on the spot, driving straight) where it counts. In doubles, for parameters that are not negative: if the larger parameters give a finite deviation, so do the smaller ones, and not a larger one (every operation of the formula is monotone under rounding). *Partial: false as stated: odom_alpha5 is never read, in any arithmetic; proved for the other four.*
* **C113 - The random numbers asked for exist.** Two random sources that agree wherever the standard specifies them. Refuted, exact arithmetic: turning on the spot asks for a first rotation of deviation zero whatever the parameters, and so does an initial pose with a zero variance. Partial: with a translation and positive alpha2, alpha3, and with positive variances, both sources give the same filter. *Partial: false as stated: turning on the spot and zero initial variances ask for a normal distribution of deviation zero, which the standard forbids; proved for motions with a translation and for positive variances.*
* **C114 - Particles start around the initial pose.** Refuted in binary64: the distributions are over float, 16777217 becomes 16777216. Partial: `b64_single` is rounding to 24 bits (Flocq), so the offset is at most 2^-24 of the coordinate plus 2^-150; none in exact arithmetic. Headings: exactly in exact arithmetic, in binary64 within 2^-23 of the heading plus 2^-47 by C125 (`C114_heading_partial`). *Partial: false as stated: positions are rounded to single precision; proved within 2^-24 of the coordinate in binary64, exactly in exact arithmetic; headings likewise up to 2^127.*
* **C115 - Every constraint can be weighed.** Refuted in binary64: a scan that hits no scoring cell has a NaN covariance, hence NaN information and a NaN error at all poses; two laser messages with one beam each put such a constraint in the graph (execution), and so does an initial pose with zero covariance. Partial, exact arithmetic: the information of a definite covariance is its definite inverse, and the covariance is definite when the scoring candidates are not all in a plane through the origin. *Partial: false as stated: without overlap the information is NaN, reached by mapping two sparse scans; proved in exact arithmetic when the scoring candidates span all directions.*
* **C116 - The optimizer survives a scan that matches nothing.** Refuted under the documented behaviour of Ceres (a problem with a block whose error is never finite is reported unusable): the block is never removed, so every later optimize call, with any constraints and scans, returns false and moves nothing; at node level no execution continuing from such a state contains an optimisation that changes the graph, and such a state is reached by driving out of the map. Partial: while every constraint can be weighed, so can every block handed to Ceres. *Partial: false as stated: the bad block stays in the problem, every later optimisation fails; proved: weighable constraints give usable blocks.*
* **C117 - Mapping resumes where the robot is put.** Refuted: the match depends on the last ten scans of the graph only, so two maps that differ everywhere else give the same match (every arithmetic); an execution loads eleven scans, puts the robot on the first, and although the beam ends on one of its points the new constraint is NaN. Partial: a map of at most rolling_depth scans is used as a whole. *Partial: false as stated: only the last ten scans by index take part; proved for maps of at most rolling_depth scans.*
* **C118 - Cell statistics in doubles are close to those of the points.** Rounding-error analysis of the running averages (`CellB64.v`): by induction over the points each running average stays within 2^-53-sized steps of the exact one; the covariance is a difference of two such averages. *Proved: binary64; every history; explicit error bounds.*
* **C119 - A cell's likelihood does not exceed 1 in doubles.** Refuted for every eigenvalue routine that returns the diagonal of a diagonal matrix: five points of a wall at x = 115.4 m give variance -2.3e-12 across the wall and 9.5e-6 along it, the regularised information is negative and the exponent at a point 25 cm away is at least 1/2; five points within 50 nm of each other give a likelihood of +infinity one centimetre away. Partial: if the variance of the points in every direction is at least 4096 M^2 (n+1) 2^-53, the covariance stays positive definite, both branches of the regularisation give a scaled adjugate up to a few roundings (`InfoB64.v`), and the exponent is at most 2^-60 (`ScoreB64.v`), where exp is at most 1. *Partial: false as stated: cancellation makes a variance negative far from the origin, so the likelihood exceeds 1 or is infinite; proved when the spread of the points exceeds the rounding noise in every direction.*
* **C120 - Scores are normalised in doubles.** Refuted by the map of one scan of the wall of C119 (a score below -1) and of the points 50 nm apart (a score of -infinity). Partial: if every cell has fewer than five points or satisfies the guard of C119, all three functions return finite values in [-1, 0]; queries inside the grid have bounded coordinates because the conversion to a cell index is only defined there. *Partial: false as stated: scores below -1 and of minus infinity on maps far from the origin; proved when the points of every cell are spread by more than the rounding noise.*
* **C121 - Search positions follow the poses of the scans.** The members of Scan are also modelled statement by statement (`ScanRaceModel.v`). Refuted: from any scan, setPose with a getBarycenterPose between its two assignments ends with the new pose, the old barycenter and a cleared flag; and a run of the node (binary64) reaches the state in which the loop closure thread is about to move a scan of the graph without a lock while the initial pose callback is inside findNearest. Partial: histories of calls that do not overlap keep the cache right; in the node model, with barycenters asked for anywhere between steps (`caching`), every scan of the heap answers with the barycenter of its pose and points, so findNearest equals the one on a graph without caches. This also justifies leaving the cache of the heap alone in the node model. *Partial: false as stated: the correction of a loop closure takes no lock, an initial pose in between leaves a stale barycenter marked up to date; proved for calls that do not overlap, and for the node when a call is one step.*
* **C122 - The correction returned is the best one tried, in doubles.** Proved in every arithmetic whose comparisons chain (`comparable`, proved of binary64 with NaN and infinities): the candidates are the loop values (`counted`, an inductive description of a counting loop) in nested order, each scored with the likelihood of the moved points (`scores_as`); the returned pose and score satisfy `best_of`. `C122_stays_in_window` bounds the correction by monotonicity of rounding. *Proved: every arithmetic with chaining comparisons, instantiated at binary64; window in binary64.*
* **C123 - The NDT covers its declared area in doubles.** Binary64. The width of the grid is trunc(size/cell + 1) computed with roundings; monotonicity of rounding gives column < width for every point of the rectangle. Rounding error analysis of the two operations of getIndex gives the square away from its borders; `C123_border` shows that a margin is needed. *Proved: binary64.*
* **C124 - addScans covers everything the laser can see, in doubles.** Binary64. The bounding box is a fold of std::min/std::max over rounded differences and sums (no overflow assumptions: a box with an infinite end makes the constructor fault); monotonicity of rounding, then C123. *Proved: binary64.*
* **C125 - Angles are normalised to rounding precision, in doubles.** Binary64 with `exact_fmod` (what the C standard says of fmod). Machin-style bounds on pi place b64_pi; fmod is exact, so the errors are one rounded addition, the rounded 2 pi times the number of turns and one rounded subtraction; for NormalizeAngle floor of a rounded quotient may be off by one next to a whole number of turns, which stays within the bound. Vocabulary: `heading_within`, `angle_error`. *Proved: binary64; fmod exact.*
* **C126 - Scans are processed after motion only, in doubles.** Binary64. Error analysis of the two squares, their sum and the root against the exact distance, C125 for the rotation; then through laserCallback as in C37. `moved` is the exact-real predicate of C37, at the poses the doubles stand for. *Proved: binary64; fmod exact.*
* **C127 - A new constraint has zero residual in doubles.** Binary64. Both sides evaluate the same expressions, so the components are x - x = 0; NormalizeAngle of a zero is computed by `vm_compute`; finite times zero and zero plus zero are zero. *Proved: binary64.*
* **C128 - Particle weights are a probability distribution in doubles.** Binary64, induction over histories. Sums of doubles of one sign are relatively accurate (`sum64`, no underflow in additions), every term is at most the rounded sum, so quotients are in [0,1]; the error of the total is the error of the sum plus one rounding per weight. `op_ok64` states what measure and resample are given. *Proved: binary64; every history.*
* **C129 - The filter reports the mean of its particles in doubles.** Binary64. Every call ends in updateStatistics, so the mean is the fold over the present particles; forward error analysis of the fold, with the total of the weights from C128. *Proved: binary64; every history.*
* **C130 - Scan points are placed to rounding precision, in doubles.** Binary64 with `accurate_trig` (sine and cosine within 2^-52). A small calculus of errors (`near`, NearB64.v) adds up the rounding of each product and sum in units of 2^-53 M; the heading of a candidate is rounded once and sine and cosine are 1-Lipschitz. `with_nearest` shows that the contract can be met. *Proved: binary64; accurate sine and cosine.*
* **C131 - A constraint reproduces the relative pose in doubles.** Binary64, the error calculus of C130; the exact inverse rotation turns the error of the transform into an error of the position of the same size. *Proved: binary64; accurate sine and cosine.*
* **C132 - The predicted pose follows odometry in doubles.** Binary64. C125 for the two normalised differences, sine and cosine 1-Lipschitz, the error calculus of C130, and the exact-real C58 for the motion; then through laserCallback. *Proved: binary64; accurate sine and cosine, fmod exact.*
* **C133 - The published transform is consistent in doubles.** Binary64. Error calculus for the entries of the product; the exact-real C59 for the motion. For the quaternion: in either branch the radicand is at least one, so the root and the quotient are well conditioned; Z^2 + W^2 = 1 for the exact half-angle values. *Proved: binary64; accurate sine and cosine.*
* **C134 - The barycenter is the centre of mass in doubles.** Binary64. Induction over the points: the error of the running sum is at most (10k + 1.01k^2) half-ulps of M after k terms; division by n and the addition of the position; the mean is linear in the point. *Proved: binary64; accurate sine and cosine.*
* **C135 - Laser readings land where they were seen, in doubles.** Binary64 and binary32. Relative error of the single-precision product and sum for the direction; the error calculus of C130 with sine and cosine 1-Lipschitz for the point; the filter is the one of C60. *Proved: binary64; accurate sine and cosine.*
* **C136 - The occupancy grid contains every scan it renders, in doubles.** Binary64. Invariant of each bound: the rounded product of the resolution and an integer that is not above (below) any point and at most one cell per render beyond the extreme one; error calculus of C130 in units of 2^-21 cells for the size and the cells; then the arithmetic-independent safety of rays within a grid. *Proved: binary64; accurate sine and cosine; sensors near the box of the points.*
* **C137 - The optimizer gets the derivatives of the residual.** The model is polymorphic in its numbers: the error term is instantiated at dual numbers (`JetModel.v`). Every operation keeps value and derivative of a real function at zero (sum, product, chain rule); floor is locally constant away from integers. A separate theorem shows the jump at half a turn. *Proved: exact arithmetic; Jets as published.*
* **C138 - Optimization never makes the map worse.** Reals. The cost of the problem at the nodes equals the error of the map at the scans (C54, C55); then the contract of Ceres: a usable solution does not cost more than the initial values. *Proved: exact arithmetic; Ceres contracts keeps_nodes and never_worse.*
* **C139 - Optimization leaves a consistent map alone.** Reals. Zero error stays zero by C138; a sum of squares is zero only if each is; C29 for the single constraint; induction along the links from the first scan, which C54 keeps in place. *Proved: exact arithmetic; Ceres contracts keeps_constant, keeps_nodes and never_worse.*
* **C140 - Without noise particles follow odometry in doubles.** Doubles. The decomposition into two turns and a translation in the near calculus, with one rounding to single precision per mean; normalize_angle by C125. *Proved: binary64; accurate sine, cosine, hypot and atan2; exact fmod.*
* **C141 - Reported position variances are not negative.** Doubles. False as stated: three particles at (5, 5) are reported with a negative variance (`C141_variance_refuted`). True up to 2^-48 (n+2) M^2: error of the running sum of products by induction, C129 for the means, weights by C128 (`C141_covariance_partial`). *Partial: false as stated (C141_variance_refuted); true up to 2^-48 (n+2) M^2, with covariance entries accurate to the same bound; binary64.*
* **C142 - What a score means.** Exact reals. C12 for each beam, the beam indices by floor arithmetic, the mean from the accumulated sum; matchScan by C17's invariant on the best candidate. *Proved: exact real arithmetic, eigenvalue contract; a match score of exactly 0 is not attributed to a pose.*
* **C143 - A measurement weighs each particle by its own score.** `measure` in every arithmetic by inversion of the loop; shares, `update` and `init` in exact reals. *Proved: measure in every arithmetic; shares, update and init in exact real arithmetic.*
* **C144 - Every particle gets its own noise of the declared size.** Exact reals. The draws are indexed: particle j uses numbers 3j, 3j+1 and 3j+2; deviations by unfolding, with the fold of the turn specified by its cosine. *Proved: exact real arithmetic.*
* **C145 - Building a map and matching against it is well defined.** Binary64. Box of the scans: each side is one of the rounded pose -/+ range, so it lies within 2.01 M; sizes and indices follow by monotone rounding at integers; points land within 3.01 M (C130), candidates within 4.02 M, so every conversion is in range; beams as in C23, loops as in C25. *Proved: binary64; sine and cosine accurate to 2^-52; at most 2^52 points; memory exhaustion not modelled.*
* **C146 - A localizing node can be started without a map.** False: `_refuted` for every configuration with ordinary cells, from C15. Partial: a mapping node (every arithmetic); a node with a map, by C145. *Partial: false as stated: undefined conversion for every configuration without a map; proved for a mapping node and for a node with a map.*
* **C147 - Measuring and resampling particles is well defined.** Binary64. KLD bound: every factor is below a power of two, rounding is monotone, so the result is below 2^63. KD-tree: bins below 2^30, insertion as in C43. Measure: C145; weights positive by C128; count by C45. *Proved: binary64; as many draws as the largest number of particles; some score is not zero.*
* **C148 - Free space is only claimed where a beam passed.** False: rays start at the origin of the robot; `_refuted` with a wall erased by three beams that pass it at four cells. Partial: every free cell is within the distance of the laser from the origin, plus two cells, of its beam (C81 and C37 give a parameter on the ray; the two ways to the same point differ by at most the offset). *Partial: false as stated: rays are drawn from the origin of the robot; proved up to the offset of the laser, exact arithmetic.*
* **C149 - Readings closer than the sensor can measure are not used.** False: range_min is not read; `_refuted` for every sensor and mounting (the point of a reading of zero is the laser itself). Partial: drivers that report such readings as NaN. *Partial: false as stated: range_min is ignored; proved for drivers that report NaN.*
* **C150 - The robot is where its newest scan is.** False: `_refuted`, a loop closure moves the newest scan and leaves the robot. Partial, every arithmetic: invariant over laser messages and loop closure that accepts no candidate. *Partial: false as stated: a loop closure leaves the robot behind; proved while no scan is moved.*
* **C151 - The documented set-ups for localization leave the map alone.** False: enable_mapping defaults to true. `_refuted` twice: with the filter the loop closure thread adds a constraint; without it the initial pose and the first scan are added. Partial: with enable_mapping false (C101). With the filter, invariant over steps: no scan is ever added, and constraints come from the loop closure thread only. *Partial: false as stated: enable_mapping must also be false.*
* **C152 - The mark switchable has no influence on the optimization.** Every arithmetic: addConstraint does not read the mark, so the residual blocks agree; induction over the constraints. Exact arithmetic: the error of a map of two scans with a right and a wrong constraint is a sum of squares about the mean of the two. *Proved: every arithmetic.*
* **C153 - Loop closure candidates are within global_search_size.** False: nanoflann compares squared distances with global_search_size. `_refuted`: two scans further apart than the parameter are matched. Partial: candidates are closer than the square root of it; every scan object is the result of constructor and setters (invariant), then C34. *Partial: false as stated: the parameter is compared with the squared distance; proved with the square root.*
* **C154 - Every history of filter calls is well defined.** Invariant over calls: weights are a distribution (C139), coordinates are bounded and grow by at most 2 N per call (rounding of sums and products, C125 for headings). Each call is defined under the invariant: C147 for resampling, C143 and C145 for measuring. *Proved: binary64; as many draws as the largest number of particles.*
* **C155 - A node whose numbers are of an ordinary size never fails.** Invariant over steps: the conditions of C103 hold, both matchers are fresh or were built from scans of the graph, the filter is sound (C154). C103 leaves numeric failures only; these are excluded step by step with C145 (building, scoring, matching), C154 (filter) and the number of search steps. Witness: a run with a closed loop and an optimization. *Proved: binary64; accurate sine and cosine, exact fmod; the step that draws the map is left to C156.*
* **C156 - Drawing the map after scans moved is well defined, and a node with ordinary numbers never fails.** Width, height and cells from the rounding errors of the differences and quotients, per axis: error of at most 3/2^18 of a cell, so positions at most three cells outside the bounds get columns and rows of the grid; the rays stay in the rectangle of their ends (C37). The node: C155, and C156_drawing for the one step it leaves out. Witness: the run of C155, then the map is drawn. *Proved: binary64; accurate sine and cosine, exact fmod.*
* **C157 - Loop closures take effect.** Refuted: new_matches is local to a pass, so a closure found before enough scans were added is not optimised afterwards (a run in binary64). Partial: within a pass, invariant between the flag in the program counter, the observations since the pass began and the number of scans; a pass that finds a closure optimises when the limit is passed, a pass that finds none never optimises. *Partial: false as stated: a closure found before enough scans were added is forgotten; proved for the closures of the pass itself, in every arithmetic, and that a pass without closures never optimises.*
* **C158 - Matching does not depend on where the map lies or on the order of its scans.** The grid is anchored at the smallest robot coordinates minus range_max, so cell indices of moved points are equal; the cells hold a sum over the points, which does not depend on their order; matching uses differences to the cell means only. *Proved: exact real arithmetic; readings within range_max of the robot, grids below 2^31 cells.*
* **C159 - The occupancy grid does not depend on the order of the scans.** Incrementing counters commutes, so whole rays and scans commute (foldM over a permuted list); minima and maxima do not depend on the order, in binary64 up to the sign of zero, which the padding of five cells hides. *Proved: exact and binary64 arithmetic (every math library); drawing in every arithmetic.*
* **C160 - Headings that differ by whole turns are the same heading.** Sine and cosine have period one turn and are the only use of headings in placing points; the error of a constraint is normalised; the headings of particles are kept in (-pi, pi] by every call (invariant), so equal directions are equal numbers. *Proved: exact real arithmetic.*
* **C161 - The map does not depend on where odometry starts.** Simulation between the two runs: every step of every thread keeps the shared data equal except the stored odometry pose, the odometry poses held by a callback in progress and the trace, which stay related; the stored odometry is not read before it was first written. The distance moved, the turn and the predicted pose are invariant under rigid motions of the frame, and the published transforms are related by the motion. The claim is refuted for turned frames: laserCallback adds the displacement during a sweep to the points in coordinates of the odometry frame (C62). It is proved when that displacement has the same coordinates in both frames, in particular for frames with parallel axes and for a robot that stands still during sweeps. *Partial: refuted when the frame is turned and the robot moves during a sweep (the points of the scan change); proved for every shift of the frame, and for every shift and turn when the displacement during each sweep has the same coordinates in both frames.*
* **C162 - Publishing never influences mapping or localization.** Simulation between the given run and the run without the publisher's steps (and without steps that were blocked): every step of the executor and the loop closure thread does the same with another flag, with the publisher's locks released and with another trace. The publisher itself writes only the flag, the mutexes, its own grid and the trace. *Proved: every arithmetic.*
* **C163 - Until a loop is closed, the result depends on the messages only.** The simulation of C162 with the steps of the loop closure thread left out too. Before its first accepted match that thread writes only its mutex, the trace and the global matcher; while mapping without a filter no callback reads the global matcher, and with mapping off the thread stays asleep. The remaining run consists of callbacks only and is deterministic: at rest only a message can be taken, otherwise only the callback can go on. *Proved: every arithmetic.*
* **C164 - Localization with particles does not depend on where the map lies.** Each of the four calls commutes with the shift: the statistics are weighted sums, and truncation commutes with adding an integer on one side of zero, so that the keys of two particles coincide in one frame exactly when they do in the other and the number of bins is the same (KdProofs). Induction over the calls. The witness of the refutation is a pair of particles at x = -0.4 and 0.4, which share the double bin at the axis. *Partial: exact arithmetic; resampling only for shifts by whole bins that cross no axis, false otherwise (refuted).*
* **C165 - The scripts do what they are named after, and load_map undoes everything since save_map.** The requests of the scripts (ScriptModel.v) are instances of C68 with one bit set; the last part composes saving, any execution, and loading with C33. *Proved: every arithmetic.*
* **C166 - What a map says about a place depends only on what was seen there.** A covered place lies in one square (C158 lemmas); the cell of that square is the cell of the points in it in any order (C03). The corner is the least robot position minus the range, so scans that are not further left or down keep it. Refuted in general by a robot pose six metres to the left without a single reading. *Partial: exact arithmetic; refuted when the corner of the map moves.*
* **C167 - Messages the node has no use for leave no trace, and a standing robot adds nothing.** Delivering a message of no use is a step to the same state; the history version is an induction over the schedule. The other two threads touch neither the tracked poses nor the scan list (C73), so a standing robot stays so. Refuted for a first message without the laser transform, which still fixes range_max. *Partial: every arithmetic; false for messages dropped before the laser is known (refuted).*
* **C168 - The occupancy published for a place depends only on the beams that cross it.** The line algorithm commutes with shifting both end squares, and the grid's origin is a whole number of cells, so the marks in the grid are the shifted marks in the plane. The counts of a square then do not mention the grid; added beams that miss it add nothing, repeated scans multiply both counts. *Proved: exact arithmetic; sensors in the padded box, grids below 2^31 cells.*
* **C169 - The filter's estimate lies among its particles.** From C46: a weighted mean with weights that sum to 1 satisfies every linear inequality the particles satisfy. For the heading, turn everything by the middle heading: the sum vector has a positive first coordinate and satisfies the two linear inequalities of the sector, so its direction is in the sector. *Proved: exact arithmetic.*
* **C170 - Matching never moves a scan further than the search window.** Invariant: both matchers keep the settings they were initialised with, a pending loop correction came out of a match with the global matcher, and the scan being processed is not in the graph. Then by cases on the step; the bound of one match is C122 (doubles) and its analogue for exact arithmetic; C85 gives the robot pose. *Proved: exact arithmetic and doubles.*
* **C171 - Further evidence points the right way.** From C168 the value of a square of the plane is the verdict on the counts of its hits and marks, and the counts of the longer list are sums. A share grows when hits are added to both sides of the fraction and shrinks when only its denominator grows. *Proved: exact arithmetic.*
* **C172 - A measurement depends on the particles and on the ratios of their scores only.** The loops of updateStatistics are folds whose steps commute, so they give the same result for a permutation of the pairs of particle and weight. A common factor of the scores cancels in the division by their sum. *Proved: exact arithmetic.*
* **C173 - What the error of a map says.** A sum of squares is zero when all its terms are, and a term is zero exactly where the constraint says (C29). Every term is invariant under motions (C30). The Cholesky factor of k times a matrix is the square root of k times its factor, because the factor with positive diagonal is unique. For two maps without error, move the first so that the first scans coincide and follow the links. *Proved: exact arithmetic.*
* **C174 - Steps add up: without noise the particles follow the path.** Induction over the steps with C50. False as stated: the direction of steps of at most a centimetre is dropped (motion_model.cpp:49), so that a robot backing up half a centimetre is taken to drive forwards. Proved for steps longer than a centimetre. *Partial: false for steps of at most a centimetre, whose direction is dropped; proved for longer steps.*
* **C175 - When no more messages arrive the node comes to rest.** Callbacks end (C90); then a pass of loop closure over the final number of scans leaves its index at that number, and no further pass gets past the loop condition; then the publisher clears the flag and only sends transforms. Three invariants, one after the other, with the progress results of C90 and C91. *Proved: every arithmetic; fair infinite executions without faults.*
* **C176 - A scan that fits where it lies is left there.** C17 with the zero correction among the candidates. Two parts are false: a window that is not a whole number of steps wide does not contain the zero correction (in doubles the default one does not either, C26; it contains one closer than 2^-54), and of a scan with more points than beams only some are used, which may fit better elsewhere in the map made of all of them (witness). *Partial: the part about the own map is false (fewer beams than points); a scan that fits best where it lies stays there if the window is a whole number of steps wide; the default search in doubles tries a correction within 2^-54 of zero.*
* **C177 - Until a loop is closed, the map is what its constraints say.** Invariant over the steps of the node for an arbitrary relation between a constraint and two poses that makeConstraint establishes: scans of the graph are moved only by an accepted closure and by the optimizer. Then C28 (exact), C127 (doubles), C173 (zero error) and induction along the constraints that C96 provides. Maps saved by such a node are loaded as such (C33). *Proved: exact arithmetic; residuals also in doubles.*
* **C178 - A loop closure disturbs only the constraints of the scan it moves.** The invariant of C177 with the alternative that the scan object of one end was moved by a closure (ghost trace) and its id is above rolling_depth; the loop closure thread works on a scan of the graph, which it moves before it makes the constraint. A closure may move a scan between the making and the adding of an odometry constraint; that constraint then counts as one of a moved scan. *Proved: exact arithmetic; residuals also in doubles.*
* **C179 - Default parameters lead to mapping.** Model of the declared defaults (DefaultsModel.v). An invariant counts the messages used (pairs of poses stored) against the scans of the map; the rest instantiates C62, C70, C78, C84, C153, C23, C10 and the search loops, whose values with the default window are computed in doubles by the kernel. *Proved: lengths in exact arithmetic; corrections and beams also in doubles.*
* **C180 - Until a loop is closed the map drifts from odometry by at most the search window per scan.** An invariant says that each pose stored is the guess from the pose before by odometry plus a result of the local matcher; the matcher's results lie in its window (C170); one message changes the heading error by the correction and the position error by the correction plus the way of one step turned by the heading error so far (2 - 2 cos e <= e^2, triangle inequality). *Proved: exact arithmetic.*
* **C181 - A viewer shows the graph published last and nothing else.** The keys (namespace and id) of the markers of a graph numbered in order are determined by the numbers of scans and constraints, which only grow while no map is loaded: every marker shown is replaced by the next message. Refuted for a node that loads a smaller map: getMsg sends no deletions. *Partial: false after a smaller map is loaded (witness); proved while no map is loaded after the start.*
* **C182 - An initial pose that is not a number does no harm.** While mapping, a position that is not a number has no neighbours (no computed distance compares as less than the radius), so the pose is refused. Refuted while localizing: from every state the pose is stored, every transform made from it has a translation that is not a number, and in a run the next laser message ends in a conversion of NaN to unsigned int. Refuted while mapping for the heading, which is not looked at: a scan with such a heading enters the graph and the next laser message ends in the same way. Refuted with the filter too: all particles are then at no place. *Partial: false while localizing, and while mapping for the heading (witnesses); proved while mapping for the position.*
* **C183 - findNearest decides by distance up to rounding, in doubles.** The computed squared distance is between d (1 - 2^-50) - 2^-600 and d (1 + 2^-50) + 2^-600. The contract of nanoflann in doubles (`SpecNear64.v`) compares computed distances and may lose a tolerance; the search of the examples meets it with none. The statement of the distance being squared (C34) applies here too. *Proved: binary64; contract of the search library.*
* **C184 - The particle cloud on display is the filter's.** The publications are added to the steps of the node in `CloudModel.v`; a step that does not publish leaves the filter alone. *Proved: every arithmetic; every execution.*
* **C185 - Any map file that can be read can be used.** False as stated: the file is taken as it is, and a constraint to a missing scan makes the first round of the publisher read outside the vector of the scans (`C185_any_map_file_refuted`). Proved instead: this happens exactly for the files with such a constraint, and files saved from a well-formed graph have none. Later rounds also need the ids in the file to be the indices (`C185_scan_ids_refuted`: an initial pose connects to a scan with id 7); for files whose graph is well formed C103 covers the whole run. *Partial: refuted as stated; every arithmetic: exactly the files with a constraint to a missing scan do harm.*
* **C186 - A request that fails because of its file changes nothing.** `FileModel.v` adds the step in which rosbag2 throws. False for requests that also switch mapping: the mapping part has been carried out by then (`C186_nothing_changes_refuted`). Proved: requests that only load or save leave the state exactly as it was; for every request graph, poses, flags, matchers, filter and the other threads are as before and the graph is unlocked. In every schedule, with any number of failing files, the states reached are states the node also reaches without them (`C186_no_new_states`: the request without its file part is simulated while other threads run), so every invariant proved elsewhere keeps holding. Nothing in the node catches the exception; what the executor does with it is outside of the model. *Partial: refuted for requests that also switch mapping; proved in every arithmetic for requests that only load or save, and for the map for all requests.*

## 3. What is modelled

| source | model file | not modelled |
|---|---|---|
| `include/ndt_2d/point.hpp`, `pose_2d.hpp` | `TypesModel.v` | - |
| `include/ndt_2d/scan.hpp`, `src/scan.cpp` | `ScanModel.v`; its assignments one by one: `ScanRaceModel.v` | pointer identity (a scan is a value; the node model has an explicit heap of scans) |
| `include/ndt_2d/ndt_model.hpp`, `src/ndt_model.cpp` | `CellModel.v`, `NdtModel.v` | memory exhaustion for large grids |
| `src/scan_matcher_ndt.cpp`, `scan_matcher*.hpp` | `MatcherModel.v` | pluginlib loading |
| `src/constraint.cpp`, `ceres_solver_pose.hpp` | `ConstraintModel.v`; the Jets of Ceres: `JetModel.v` | the components of a Jet (one direction at a time) |
| `src/ceres_solver.cpp` | `SolverModel.v` | the minimiser itself (an oracle); verbose printing |
| `src/graph.cpp`, `graph.hpp`, `msg/*.msg` | `GraphModel.v` | rosbag2, CDR, file system (a file is its list of messages); nanoflann (an oracle with the contract of `SpecGraph.v`) |
| `src/occupancy_grid.cpp` | `OccGridModel.v` | header fields of the message |
| `kd_tree.hpp` | `KdModel.v` | - |
| `src/motion_model.cpp` | `MotionModel.v` | the random generator (an oracle stream) |
| `src/particle_filter.cpp` | `FilterModel.v` | the random generator; the markers of getMsg beyond what C52 states |
| `src/ndt_mapper.cpp:262-567, 716-740` (numeric parts) | `LaserModel.v` | tf2 (look-ups are inputs of the message event) |
| `src/ndt_mapper.cpp:722-738` (message of the transform) | `TfModel.v` | header; tf2's own conversions beyond the quaternion |
| `src/ndt_mapper.cpp` (node) | `MapperModel.v` | logging, topic and service plumbing, sleeping rates |
| `src/ndt_mapper.cpp:224-229, 480-486` (particle clouds) | `CloudModel.v` | header and stamp |
| `src/graph.cpp:52-53, 110-111` (files that cannot be opened) | `FileModel.v` | what the executor does with the exception |
| `src/ndt_mapper.cpp:57-110`, `src/scan_matcher_ndt.cpp:37-44` (declared defaults) | `DefaultsModel.v`; `matcher_default` in `MatcherModel.v` | transform_timeout and the frame names |
| `src/ndt_mapper.cpp:62-88`, `src/scan_matcher_ndt.cpp:44` (integer parameters) | `ParamsModel.v` | the parameter server; memory exhaustion for large particle counts |
| `src/ndt_mapper.cpp:141-153, 571, 689` (threads' loops, destructor) | `LifeModel.v` | destruction of the members after the joins; `rclcpp::ok()` is a flag that only becomes false |
| `scripts/*.py` | ScriptModel | waiting for the service and for the answer |
| `plugins.xml`, tests | - | all |

The node model: a state is shared data (graph, poses, flags, mutex owners, global
matcher), plus program counter and private data of each of the three threads. A
label is `Deliver e` (the executor starts a callback), `Spin`, `Loop` or `Pub` (one
step of a thread). One step performs at most one critical section or one group of
unlocked accesses. Executions are sequentially consistent: a C++ data race is
undefined behaviour, so theorems about all schedules hold for executions in which
unlocked accesses behave as atomic, and `_refuted` theorems about a bad schedule do
not depend on this. `sh_trace` and similar fields are ghost state: they record
observable effects (published maps, markers, transforms, appended scans and
constraints) and are never read.

Arithmetic: in exact-real theorems rounding is not modelled. binary64 theorems use
Flocq's correctly rounded operations and an arbitrary libm. `float` fields of ROS
messages are modelled as numbers of the same type; the narrowing conversions to
float (`nsingle`) are modelled where the code performs them.

## 4. Trusted base

* Coq 8.16.1: kernel, including `vm_compute`; its standard library; Flocq 4.1
  (definitions and lemmas, no axioms of its own).
* Axioms, as reported by `Print Assumptions` under every property theorem; there
  are no others, and none is declared in this development:
  * `ClassicalDedekindReals.sig_forall_dec`, `ClassicalDedekindReals.sig_not_dec`,
    `FunctionalExtensionality.functional_extensionality_dep` (standard library,
    behind the real numbers);
  * `Classical_Prop.classic` (standard library, through Flocq and real analysis).
  Theorems that hold for every arithmetic are closed under the global context.
* The reading of the C++ source: the model is written by hand from the text of
  `/repo`, is not extracted from or run against the code, and was checked only by
  proof and by the wrong programs in `seeded/LOG.jsonl`.
* Contracts of external code (each an explicit hypothesis where it is used):
  `eigen_contract` (Eigen's eigenvalues), `search_in_range` and `radius_contract`
  (nanoflann), `keeps_constant`, `keeps_nodes`, `never_worse` (Ceres), libm facts such as
  `cos 0 = 1`, `trig_ok` (bounded sine and cosine) and `accurate_trig` (within 2^-52),
  `accurate_hypot`, `accurate_atan2` (within an ulp), `exact_fmod` (fmod
  as in the C standard), normalize_angle as published in the angles package,
  tf2::getYaw and the rules of ceres::Jet as published.

## 5. Wrong programs

`seeded/LOG.jsonl` has one line for every edit of a model definition tried in a
scratch copy: the definition, the edit, the English claim it breaks, the theorems
that no longer check, and the theorems added or tightened because of it. An edit
that survives although it falsifies a claim leads to a stronger theorem; edits that
leave the meaning unchanged are marked `equivalent`.

