{"id": "C01", "title": "Cell statistics equal the batch sample statistics", "statement": "In exact real arithmetic (doubles: C118), after any interleaving of addPoint and compute calls on a fresh cell that ends with compute, with at least three points added, the cell's count, mean and covariance are exactly the count, the arithmetic mean and the unbiased sample covariance (divisor n-1) of all the points added, however the points were batched.", "quantifier": "every sequence (any length, any order) of addPoint/compute calls with arbitrary real coordinates", "why_tests_cant": "the incremental formula must agree with the batch formula for every sequence of points; tests fix a handful of points", "anchors": ["src/ndt_model.cpp:Cell::addPoint", "src/ndt_model.cpp:Cell::compute"]}
{"id": "C02", "title": "Cell statistics do not depend on insertion order", "statement": "In exact real arithmetic, two cells fed the same points in different orders report the same count, mean, covariance and score for every query point.", "quantifier": "every list of points, every permutation of it, every query point", "why_tests_cant": "the number of permutations is unbounded", "anchors": ["src/ndt_model.cpp:Cell::addPoint", "src/ndt_model.cpp:Cell::compute", "src/ndt_model.cpp:Cell::score"]}
{"id": "C03", "title": "Cell covariance is a covariance matrix", "statement": "In exact real arithmetic (doubles: C119), the covariance computed by a cell is symmetric and positive semi-definite, and the information matrix derived from it is symmetric and positive semi-definite unless all points of the cell coincide.", "quantifier": "every list of at least three points", "why_tests_cant": "definiteness is a universally quantified algebraic fact", "anchors": ["src/ndt_model.cpp:Cell::compute"]}
{"id": "C04", "title": "Cell score is a normalised likelihood", "statement": "In exact real arithmetic (doubles: C119), a computed cell with at least five points that are not all equal scores every query point in (0, 1], scores its mean exactly 1; a cell with fewer than five points scores every query point 0.", "quantifier": "every list of points and every query point", "why_tests_cant": "the range must hold for every query point and every cell content", "anchors": ["src/ndt_model.cpp:Cell::score"]}
{"id": "C05", "title": "Well-conditioned cell scores by the Gaussian of its sample covariance", "statement": "When the smaller eigenvalue of the sample covariance is positive and at least 0.001 times the larger one, the score of a point q is exp(-1/2 (q-mean)^T C^-1 (q-mean)) where C^-1 is the true inverse of the sample covariance C.", "quantifier": "every list of at least five points in general position, every query point", "why_tests_cant": "equality of two formulas for all inputs", "anchors": ["src/ndt_model.cpp:Cell::compute", "src/ndt_model.cpp:Cell::score"]}
{"id": "C06", "title": "Ill-conditioned cells are regularised to an eigenvalue ratio of 0.001", "statement": "When the smaller eigenvalue of the covariance is below 0.001 times the larger one, the cell scores as if the smaller eigenvalue were raised to 0.001 times the larger one (source comment: 'Limit the eigen values so that smaller is always at least 0.001 of larger').", "quantifier": "every list of at least five points that is (nearly) collinear, every query point", "why_tests_cant": "statement about a limit behaviour for all degenerate configurations", "anchors": ["src/ndt_model.cpp:Cell::compute"]}
{"id": "C07", "title": "Cell score is always a number", "statement": "For every cell content and every finite query point, the score of a computed cell is a number between 0 and 1 in the double arithmetic the code runs in.", "quantifier": "every list of finite double points, including repeated ones, and every finite query point", "why_tests_cant": "tests never use a cell whose points coincide; the claim is over all inputs of the IEEE arithmetic", "anchors": ["src/ndt_model.cpp:Cell::compute", "src/ndt_model.cpp:Cell::score"]}
{"id": "C08", "title": "compute is idempotent and always brings a cell up to date", "statement": "Calling compute twice is the same as calling it once; and after any history, compute makes the reported covariance and information depend only on the set of points added (no stale matrix survives an addPoint followed by compute).", "quantifier": "every history of addPoint/compute calls", "why_tests_cant": "stale-cache bugs depend on the order of calls in unbounded histories", "anchors": ["src/ndt_model.cpp:Cell::addPoint", "src/ndt_model.cpp:Cell::compute"]}
{"id": "C09", "title": "The NDT never accesses a cell outside its storage", "statement": "For an NDT of fewer than 2^31 cells, adding any scan or querying any point never touches memory outside the cell vector: every coordinate pair is either mapped to a valid cell, reported as outside, or (not a number, or more than 2^32 cells away) reaches the undefined double-to-unsigned conversion of the source.", "quantifier": "every NDT geometry, every point, in every arithmetic (in particular IEEE doubles)", "why_tests_cant": "memory safety must hold for every coordinate including NaN and infinities", "anchors": ["src/ndt_model.cpp:NDT::getIndex", "src/ndt_model.cpp:NDT::addScan", "src/ndt_model.cpp:NDT::likelihood"]}
{"id": "C10", "title": "The NDT covers its declared area and separates its squares", "statement": "Every point of the rectangle [origin, origin+size] is assigned a cell; two points are assigned the same cell exactly when they lie in the same cell_size square of the lattice anchored at the origin; points left of or below the origin are assigned none.", "quantifier": "every cell size > 0, every size >= 0, every origin, every pair of points", "why_tests_cant": "injectivity of the index computation for all grids and points", "anchors": ["src/ndt_model.cpp:NDT::NDT", "src/ndt_model.cpp:NDT::getIndex"]}
{"id": "C11", "title": "Every NDT cell models exactly the scan points that fall in its square", "statement": "After any sequence of addScan calls, each cell holds exactly the statistics of those points, transformed by the pose of their scan, that lie in its square, in order; points outside the grid contribute nothing.", "quantifier": "every sequence of scans with arbitrary poses and points", "why_tests_cant": "history over an unbounded number of scans and points", "anchors": ["src/ndt_model.cpp:NDT::addScan"]}
{"id": "C12", "title": "NDT likelihood of point sets and scans", "statement": "After compute, the likelihood of a point is decided by the cell it lies in: 0 outside the grid, 0 with fewer than five points in the cell, else the Gaussian of those points (regularised when narrow). The likelihood of a point set is the sum of the point likelihoods, lies between 0 and the number of points, ignores points outside the grid, does not depend on the order of the points, and the likelihood of a scan is the likelihood of its points transformed by its pose.", "quantifier": "every NDT content, every finite set of query points and every scan", "why_tests_cant": "universally quantified over point sets", "anchors": ["src/ndt_model.cpp:NDT::likelihood"]}
{"id": "C13", "title": "addScans covers everything the laser can see", "statement": "After addScans, every point within range_max (in x and in y) of the pose of one of the added scans lies inside the NDT, so no in-range measurement is dropped.", "quantifier": "every non-empty list of scans with arbitrary poses, every range_max >= 0", "why_tests_cant": "bounding boxes must work for poses anywhere in the plane, including all-negative coordinates", "anchors": ["src/scan_matcher_ndt.cpp:ScanMatcherNDT::addScans"]}
{"id": "C14", "title": "addScans builds a map no larger than needed", "statement": "The area of the NDT built by addScans is the bounding box of the added scans extended by range_max: its memory does not depend on where in the map frame the scans lie.", "quantifier": "every non-empty list of scans, every translation of the map frame", "why_tests_cant": "the failing case needs maps with negative coordinates of unbounded size", "anchors": ["src/scan_matcher_ndt.cpp:ScanMatcherNDT::addScans"]}
{"id": "C15", "title": "addScans accepts an empty range", "statement": "Calling addScans with no scans (begin == end), as laserCallback does when localising with an empty graph, is well defined and yields a map that scores everything 0.", "quantifier": "every matcher configuration, in double arithmetic", "why_tests_cant": "the undefined conversion silently 'works' on one machine and not on another", "anchors": ["src/scan_matcher_ndt.cpp:ScanMatcherNDT::addScans", "src/ndt_mapper.cpp:Mapper::laserCallback"]}
{"id": "C16", "title": "A matcher without a map is inert", "statement": "Before addScans, and after reset, matchScan, scoreScan and scorePoints return 0 and matchScan leaves the caller's pose and covariance untouched.", "quantifier": "every scan, pose, covariance and matcher configuration", "why_tests_cant": "for all inputs", "anchors": ["src/scan_matcher_ndt.cpp:ScanMatcherNDT::matchScan", "src/scan_matcher_ndt.cpp:ScanMatcherNDT::scorePoints", "src/scan_matcher_ndt.cpp:ScanMatcherNDT::reset"]}
{"id": "C17", "title": "matchScan returns the best candidate of the search window", "statement": "matchScan evaluates every offset (dth, dx, dy) of the search lattice; the score it returns is the least candidate score (or 0 if no candidate scores below 0) and the pose it reports is the first candidate, in search order, attaining that score; if no candidate scores below 0 the caller's pose is left untouched. The reported offset lies in [-size, size) in every axis.", "quantifier": "every NDT, scan, search window and resolution", "why_tests_cant": "optimality over the whole lattice for all maps", "anchors": ["src/scan_matcher_ndt.cpp:ScanMatcherNDT::matchScan"]}
{"id": "C18", "title": "matchScan's score is the score of the scan at the corrected pose", "statement": "Adding the reported correction to the scan pose (as laserCallback does) and calling scoreScan gives exactly the score matchScan returned.", "quantifier": "every NDT, scan and search window where some candidate scores", "why_tests_cant": "agreement of two code paths (search loop and scorePoints) for all inputs", "anchors": ["src/scan_matcher_ndt.cpp:ScanMatcherNDT::matchScan", "src/scan_matcher_ndt.cpp:ScanMatcherNDT::scorePoints", "src/ndt_mapper.cpp:Mapper::laserCallback"]}
{"id": "C19", "title": "Matching never makes the score worse", "statement": "The score returned by matchScan is at most (i.e. at least as good as) the score of the uncorrected scan.", "quantifier": "every NDT, scan, search window size and resolution", "why_tests_cant": "depends on whether the zero offset is on the lattice, for every parameter choice", "anchors": ["src/scan_matcher_ndt.cpp:ScanMatcherNDT::matchScan", "src/scan_matcher_ndt.cpp:ScanMatcherNDT::scoreScan"]}
{"id": "C20", "title": "Scores are normalised", "statement": "In exact real arithmetic (doubles: C120), matchScan, scoreScan and scorePoints return values in [-1, 0] for every non-empty scan and laser_max_beams >= 1, on every map none of whose cells holds five or more points that all coincide.", "quantifier": "every NDT, pose and non-empty scan", "why_tests_cant": "range claim over all inputs", "anchors": ["src/scan_matcher_ndt.cpp:ScanMatcherNDT::matchScan", "src/scan_matcher_ndt.cpp:ScanMatcherNDT::scorePoints"]}
{"id": "C21", "title": "The covariance reported by matchScan is the score-weighted covariance of the candidates", "statement": "The covariance matrix is K/s - u u^T / s^2 (Olson 2009, the reference the README gives): the covariance of the candidate offsets weighted by their scores.", "quantifier": "every NDT, scan and search window with at least one scoring candidate", "why_tests_cant": "an algebraic identity over all candidate sets", "anchors": ["src/scan_matcher_ndt.cpp:ScanMatcherNDT::matchScan"]}
{"id": "C22", "title": "The covariance reported by matchScan is symmetric positive semi-definite", "statement": "Whenever at least one candidate scores, the reported covariance is symmetric, positive semi-definite, and bounds the true weighted covariance from above.", "quantifier": "every NDT, scan and search window with at least one scoring candidate", "why_tests_cant": "definiteness for all candidate sets", "anchors": ["src/scan_matcher_ndt.cpp:ScanMatcherNDT::matchScan"]}
{"id": "C23", "title": "Beam subsampling is in range and spread over the whole scan", "statement": "At most laser_max_beams points are used; the used indices start at 0, strictly increase, stay below the number of points, and are all the points when laser_max_beams >= number of points; index number j is within 1 (plus rounding) of j * points / beams. This holds in IEEE double arithmetic, in which the indices are computed.", "quantifier": "every number of points and every beam limit up to 2^31", "why_tests_cant": "rounding of i * (n / m) must never reach n for any n, m, i", "anchors": ["src/scan_matcher_ndt.cpp:ScanMatcherNDT::matchScan", "src/scan_matcher_ndt.cpp:ScanMatcherNDT::scorePoints"]}
{"id": "C24", "title": "matchScan's results are finite", "statement": "For every scan and map, the score and covariance returned by matchScan are finite numbers.", "quantifier": "every scan (including one with no valid returns) and every map (including one the scan does not overlap), in double arithmetic", "why_tests_cant": "needs the empty scan and the no-overlap scan in IEEE arithmetic", "anchors": ["src/scan_matcher_ndt.cpp:ScanMatcherNDT::matchScan"]}
{"id": "C25", "title": "matchScan terminates", "statement": "With positive search resolutions the search visits ceil(2*size/resolution) offsets per axis and returns.", "quantifier": "every window size and every resolution", "why_tests_cant": "non-termination cannot be observed by a test", "anchors": ["src/scan_matcher_ndt.cpp:ScanMatcherNDT::matchScan"]}
{"id": "C26", "title": "The search window with default parameters in double arithmetic", "statement": "With the default parameters the search visits 20 linear offsets per axis and 80 angular offsets, from -size up to but excluding size, including the zero offset.", "quantifier": "the double arithmetic of the accumulating loop counter", "why_tests_cant": "rounding of an accumulating loop counter", "anchors": ["src/scan_matcher_ndt.cpp:ScanMatcherNDT::matchScan"]}
{"id": "C27", "title": "The barycenter is always up to date", "statement": "getBarycenterPose returns the scan pose translated to the centroid of the current points (the pose itself if there are none), with the scan's heading, after any history of setPose, setPoints and getBarycenterPose calls.", "quantifier": "every history of calls with arbitrary poses and points", "why_tests_cant": "cache invalidation over unbounded histories", "anchors": ["src/scan.cpp:Scan::getBarycenterPose", "src/scan.cpp:Scan::update"]}
{"id": "C28", "title": "A constraint reproduces the relative pose it was made from", "statement": "Composing the pose of the first scan with the transform of makeConstraint(from, to) gives exactly the pose of the second scan; begin/end are the ids of the two scans, the constraint is not switchable, and its information matrix is the inverse of the given covariance.", "quantifier": "every pair of poses, every invertible covariance", "why_tests_cant": "trigonometric identity over all poses", "anchors": ["src/constraint.cpp:makeConstraint"]}
{"id": "C29", "title": "A fresh constraint has zero residual", "statement": "The pose-graph error term of a constraint, evaluated at the poses the constraint was made from, is zero, also when either heading is given with extra full turns.", "quantifier": "every pair of poses, every number of full turns", "why_tests_cant": "for all poses and wraps", "anchors": ["src/constraint.cpp:makeConstraint", "include/ndt_2d/ceres_solver_pose.hpp:PoseGraph2dErrorTerm"]}
{"id": "C30", "title": "Residuals do not depend on the map frame", "statement": "Moving both poses by the same rigid motion leaves the residual of every constraint unchanged.", "quantifier": "every constraint, pair of poses and rigid motion", "why_tests_cant": "gauge invariance over a continuous group", "anchors": ["include/ndt_2d/ceres_solver_pose.hpp:PoseGraph2dErrorTerm"]}
{"id": "C31", "title": "NormalizeAngle", "statement": "NormalizeAngle returns the unique angle in [-pi, pi) that differs from its argument by a whole number of turns.", "quantifier": "every angle", "why_tests_cant": "for all reals", "anchors": ["include/ndt_2d/ceres_solver_pose.hpp:NormalizeAngle"]}
{"id": "C32", "title": "The optimizer weights residuals by the information matrix", "statement": "The squared norm of the residual vector handed to Ceres is the Mahalanobis distance r^T * information * r.", "quantifier": "every positive definite information matrix and every raw residual", "why_tests_cant": "identity over all matrices; diagonal test matrices hide the difference", "anchors": ["src/ceres_solver.cpp:CeresSolver::addConstraint", "include/ndt_2d/ceres_solver_pose.hpp:PoseGraph2dErrorTerm"]}
{"id": "C33", "title": "Saving and loading a map is lossless", "statement": "Loading a saved graph yields the same scans (ids, poses, points, order) and the same constraints (endpoints, transform, information, switchable flag, order), for graphs of any size.", "quantifier": "every graph whose ids fit in 64 bits", "why_tests_cant": "round trip over all graphs", "anchors": ["src/graph.cpp:Graph::save", "src/graph.cpp:Graph::Graph"]}
{"id": "C34", "title": "findNearest returns the scans within the given distance", "statement": "findNearest(scan, dist, limit) returns exactly the indices below the limit whose (barycenter or pose) position is at distance less than dist from that of the query scan, nearest first.", "quantifier": "every graph, query, distance and limit", "why_tests_cant": "depends on the metric convention of the search library for all distances", "anchors": ["src/graph.cpp:Graph::findNearest"]}
{"id": "C35", "title": "findNearest honours its limit and never reads outside the graph", "statement": "With a positive limit not exceeding the number of scans, or with a non-positive limit (no limit), findNearest only returns indices of existing scans below the limit; with a limit beyond the number of scans it reads outside the scan vector.", "quantifier": "every graph, query, distance and limit", "why_tests_cant": "memory safety for all limits", "anchors": ["src/graph.cpp:Graph::findNearest", "include/ndt_2d/graph.hpp:GraphAdapter"]}
{"id": "C36", "title": "The graph visualisation shows the graph", "statement": "getMsg appends one red node marker per scan at its pose and one edge marker per constraint joining the poses of its two scans, green if and only if the constraint is switchable; it is defined exactly when all constraint endpoints are indices of existing scans.", "quantifier": "every graph", "why_tests_cant": "for all graphs, and memory safety of scans[constraint->end]", "anchors": ["src/graph.cpp:Graph::getMsg"]}
{"id": "C37", "title": "Ray tracing terminates inside the rectangle of the ray", "statement": "Rendering a ray terminates, touches only cells of the axis-aligned rectangle spanned by its start and end cells, touches each cell at most once as free, and marks exactly one cell as hit.", "quantifier": "every pair of start and end cells", "why_tests_cant": "termination and confinement for all rays", "anchors": ["src/occupancy_grid.cpp:OccupancyGrid::getMsg"]}
{"id": "C38", "title": "The cell a beam ends in is marked as hit", "statement": "For every beam the cell containing its end point receives the hit, and the cells before it do not.", "quantifier": "every pair of start and end cells", "why_tests_cant": "holds for most but not all slopes; tests sample few rays", "anchors": ["src/occupancy_grid.cpp:OccupancyGrid::getMsg"]}
{"id": "C39", "title": "Occupancy values", "statement": "Every published cell value is -1, 0 or 100: -1 exactly when no ray touched the cell, 100 exactly when the fraction of hits among its touches exceeds the threshold, 0 otherwise.", "quantifier": "every list of scans, every threshold", "why_tests_cant": "for all renderings", "anchors": ["src/occupancy_grid.cpp:OccupancyGrid::getMsg"]}
{"id": "C40", "title": "The occupancy grid contains every scan it renders", "statement": "Rendering a list of scans never writes outside the grid: the grid published covers the origin, all points and all sensor poses.", "quantifier": "every list of scans", "why_tests_cant": "out-of-bounds writes silently corrupt memory", "anchors": ["src/occupancy_grid.cpp:OccupancyGrid::getMsg", "src/occupancy_grid.cpp:OccupancyGrid::updateBounds"]}
{"id": "C41", "title": "Rendering is memory safe after the graph changed", "statement": "Rendering again after scan poses were corrected by loop closure or optimization, or after another map was loaded, never writes outside the grid.", "quantifier": "every history of renders, pose updates and map loads", "why_tests_cant": "needs particular histories", "anchors": ["src/occupancy_grid.cpp:OccupancyGrid::getMsg", "src/occupancy_grid.cpp:OccupancyGrid::updateBounds", "src/ndt_mapper.cpp:Mapper::configure"]}
{"id": "C42", "title": "Incremental bounds equal batch bounds", "statement": "As long as existing scans do not change, the bounds after any number of incremental updates equal the bounds of a single update with all the scans, and updating without new points changes nothing.", "quantifier": "every way of splitting every list of scans into updates", "why_tests_cant": "all splittings of all histories", "anchors": ["src/occupancy_grid.cpp:OccupancyGrid::updateBounds"]}
{"id": "C43", "title": "The KD-tree counts occupied bins", "statement": "After clear and any sequence of insertions, getLeafCount is the number of distinct (x, y, theta) bins among the inserted keys; the leaf of a bin holds the sum of the values inserted into that bin.", "quantifier": "every sequence of insertions of any length", "why_tests_cant": "tree shape depends on the whole insertion history", "anchors": ["include/ndt_2d/kd_tree.hpp:KDTree::insert", "include/ndt_2d/kd_tree.hpp:KDTree::getLeafCount"]}
{"id": "C44", "title": "Particle weights are a probability distribution", "statement": "After construction and after every init, update, measure or resample call, there are as many weights as particles, all weights are non-negative and they sum to 1, provided the matcher gives at least one particle a non-zero score at each measure.", "quantifier": "every history of filter operations, every random draw, every matcher with scores <= 0", "why_tests_cant": "random draws and unbounded histories", "anchors": ["src/particle_filter.cpp:ParticleFilter::updateStatistics", "src/particle_filter.cpp:ParticleFilter::measure"]}
{"id": "C45", "title": "Particle count stays within its limits", "statement": "resample terminates and leaves between min_particles and max_particles particles (min <= max, max >= 1), each of which is one of the previous particles with its previous weight.", "quantifier": "every particle set, every random draw sequence, every KLD parameter for which the bound is representable", "why_tests_cant": "the adaptive loop's exit depends on random draws", "anchors": ["src/particle_filter.cpp:ParticleFilter::resample"]}
{"id": "C46", "title": "The filter mean and position covariance are the weighted sample statistics", "statement": "getMean returns the weighted mean position and the circular weighted mean heading in [-pi, pi], and the x/y block of getCovariance is the weighted covariance of the particles: symmetric and positive semi-definite.", "quantifier": "every particle set and weights", "why_tests_cant": "for all particle sets", "anchors": ["src/particle_filter.cpp:ParticleFilter::updateStatistics"]}
{"id": "C47", "title": "The filter heading variance describes the current particles", "statement": "The heading entry of getCovariance is the weighted mean squared angular deviation of the current particles from the mean heading.", "quantifier": "every history of filter operations", "why_tests_cant": "needs more than one operation; the test tolerance hides the accumulation", "anchors": ["src/particle_filter.cpp:ParticleFilter::updateStatistics"]}
{"id": "C48", "title": "Resampling does not bias the estimate", "statement": "When particles are drawn exactly in proportion to their weights, the mean after resampling equals the mean before.", "quantifier": "every particle set with rational weights and every proportional draw", "why_tests_cant": "statistical bias is invisible in a single random run", "anchors": ["src/particle_filter.cpp:ParticleFilter::resample"]}
{"id": "C49", "title": "A measurement nothing explains keeps the filter usable", "statement": "If every particle scores 0 the filter keeps finite weights, mean and covariance.", "quantifier": "every particle set, in double arithmetic", "why_tests_cant": "needs the all-zero measurement in IEEE arithmetic", "anchors": ["src/particle_filter.cpp:ParticleFilter::measure", "src/particle_filter.cpp:ParticleFilter::updateStatistics"]}
{"id": "C50", "title": "Noise-free motion update is the odometry motion", "statement": "When the sampled noise is zero and the translation exceeds 1 cm, the motion model moves every particle by exactly the commanded motion (dx, dy, dth) expressed in the particle's own frame, with the heading normalised to (-pi, pi]; the number and order of particles is preserved.", "quantifier": "every motion and every particle set", "why_tests_cant": "trigonometric identity over all motions and headings", "anchors": ["src/motion_model.cpp:MotionModel::sample"]}
{"id": "C51", "title": "Motion noise is symmetric in driving direction", "statement": "Driving backwards is given the same noise as driving forwards, and the rotational noise inputs never exceed a quarter turn.", "quantifier": "every motion", "why_tests_cant": "for all motions", "anchors": ["src/motion_model.cpp:MotionModel::sample"]}
{"id": "C52", "title": "The particle cloud message shows the particles", "statement": "The pose array has one pose per particle, in order, and converting each pose back with fromMsg gives the particle (heading in (-pi, pi]).", "quantifier": "every particle set", "why_tests_cant": "quaternion/yaw round trip over all headings", "anchors": ["src/particle_filter.cpp:ParticleFilter::getMsg", "include/ndt_2d/conversions.hpp:fromMsg"]}
{"id": "C53", "title": "A failed optimization leaves the map alone", "statement": "optimize returns false and changes no scan pose when there are no scans or when the solver reports no usable solution; in every case it changes neither constraints nor scan points, ids or order.", "quantifier": "every graph, every solver behaviour", "why_tests_cant": "failure injection into the external solver", "anchors": ["src/ceres_solver.cpp:CeresSolver::optimize"]}
{"id": "C54", "title": "The first scan anchors the map", "statement": "A successful optimize leaves the pose of the first scan unchanged and sets every other scan to the solver's solution for its node.", "quantifier": "every graph with distinct scan ids, every solver that keeps constant parameters constant", "why_tests_cant": "for all solver results", "anchors": ["src/ceres_solver.cpp:CeresSolver::optimize"]}
{"id": "C55", "title": "Every constraint enters the optimization exactly once", "statement": "Over any sequence of optimize calls on a growing constraint list, the problem solved contains each constraint exactly once, in order, attached to the nodes of its two scans.", "quantifier": "every sequence of optimize calls on growing graphs", "why_tests_cant": "incremental bookkeeping over unbounded histories", "anchors": ["src/ceres_solver.cpp:CeresSolver::optimize", "src/ceres_solver.cpp:CeresSolver::addConstraint"]}
{"id": "C56", "title": "Optimization uses the loaded map", "statement": "After loading another map, the next optimize minimises the residuals of the constraints of the loaded map.", "quantifier": "every pair of maps and history of optimize calls", "why_tests_cant": "needs a load between two optimizations", "anchors": ["src/ceres_solver.cpp:CeresSolver::optimize", "src/ndt_mapper.cpp:Mapper::configure"]}
{"id": "C57", "title": "Scans are only used after enough motion", "statement": "Once the map is not empty, a scan is processed only if the odometry moved at least minimum_travel_distance or turned at least minimum_travel_rotation since the last processed scan; otherwise nothing changes.", "quantifier": "every odometry history and parameter choice", "why_tests_cant": "for all motions", "anchors": ["src/ndt_mapper.cpp:Mapper::laserCallback"]}
{"id": "C58", "title": "Odometry is applied as a rigid motion", "statement": "The initial pose guess of a new scan relates to the previous robot pose exactly as the new odometry pose relates to the previous odometry pose.", "quantifier": "every previous pose, previous odometry and new odometry", "why_tests_cant": "SE(2) identity for all poses", "anchors": ["src/ndt_mapper.cpp:Mapper::laserCallback"]}
{"id": "C59", "title": "The published map->odom transform is consistent", "statement": "Composing the published map->odom transform with the odometry pose of the last processed scan gives the robot pose in the map.", "quantifier": "every pair of poses", "why_tests_cant": "SE(2) identity for all poses", "anchors": ["src/ndt_mapper.cpp:Mapper::mapPublishThread"]}
{"id": "C60", "title": "Range filtering", "statement": "The converted scan contains one point for every range reading that is a number not exceeding max range, in beam order, and nothing else.", "quantifier": "every laser message, upright or inverted laser", "why_tests_cant": "loop bounds for every message length", "anchors": ["src/ndt_mapper.cpp:Mapper::laserCallback"]}
{"id": "C61", "title": "Scan points are finite", "statement": "Every point of a scan built from a laser message has finite coordinates.", "quantifier": "every laser message conforming to REP-117 (-inf = too close, +inf = no return, NaN = invalid)", "why_tests_cant": "needs the special float values", "anchors": ["src/ndt_mapper.cpp:Mapper::laserCallback"]}
{"id": "C62", "title": "Motion compensation places static obstacles correctly", "statement": "For a robot moving at constant velocity, all readings of one static obstacle point are converted to the same point of the scan frame.", "quantifier": "every constant planar motion during the sweep, every odometry heading", "why_tests_cant": "needs particular headings", "anchors": ["src/ndt_mapper.cpp:Mapper::laserCallback"]}
{"id": "C63", "title": "The rolling window has rolling_depth scans", "statement": "When mapping, a new scan is matched against the last min(rolling_depth, number of scans) scans.", "quantifier": "every number of scans and every rolling_depth", "why_tests_cant": "needs non-default parameters", "anchors": ["src/ndt_mapper.cpp:Mapper::laserCallback"]}
{"id": "C64", "title": "The pose graph stays well formed", "statement": "In every reachable state, between callbacks, scan i has id i and every constraint joins two existing scans, its start before its end; ids are never reused.", "quantifier": "every history of laser, pose and load/save/enable/disable requests and loop closures, in every interleaving", "why_tests_cant": "unbounded histories and schedules", "anchors": ["src/ndt_mapper.cpp:Mapper::laserCallback", "src/ndt_mapper.cpp:Mapper::poseCallback", "src/ndt_mapper.cpp:Mapper::loopClosureThread"]}
{"id": "C65", "title": "The graph published or optimised is always well formed", "statement": "Whenever another thread holds the graph lock, every constraint in the graph joins two scans of the graph.", "quantifier": "every schedule of the three threads", "why_tests_cant": "a race with a window between two lock acquisitions", "anchors": ["src/ndt_mapper.cpp:Mapper::laserCallback", "src/ndt_mapper.cpp:Mapper::mapPublishThread", "src/ndt_mapper.cpp:Mapper::loopClosureThread"]}
{"id": "C66", "title": "Map updates are never lost", "statement": "Every change made to the map by a laser scan or a loop closure is contained in a map published later: whenever the publish thread is idle and no callback is in progress, either the update flag is set or the last published map shows the current graph.", "quantifier": "every schedule of the three threads", "why_tests_cant": "lost-update races depend on the schedule", "anchors": ["src/ndt_mapper.cpp:Mapper::mapPublishThread", "src/ndt_mapper.cpp:Mapper::laserCallback", "src/ndt_mapper.cpp:Mapper::loopClosureThread"]}
{"id": "C67", "title": "Relocalization is required after loading a map or pausing mapping", "statement": "After a load or disable request (or when started from a map file) no scan is processed - graph, poses and filter do not change - until an initial pose is accepted; enabling mapping alone does not resume it.", "quantifier": "every history of requests", "why_tests_cant": "unbounded histories", "anchors": ["src/ndt_mapper.cpp:Mapper::configure", "src/ndt_mapper.cpp:Mapper::poseCallback", "src/ndt_mapper.cpp:Mapper::laserCallback"]}
{"id": "C68", "title": "Configure request decoding", "statement": "For every action bit mask: enable takes precedence over disable, load over save, the mapping part and the file part are independent, and other bits have no effect.", "quantifier": "every 32-bit action value and every state", "why_tests_cant": "2^32 masks times all states", "anchors": ["src/ndt_mapper.cpp:Mapper::configure"]}
{"id": "C69", "title": "Initial pose handling", "statement": "An initial pose is ignored while mapping and localized, and rejected if not in the map frame or when odometry is unavailable; when mapping it is accepted only near the existing graph and then adds exactly one scan and one constraint to the nearest scan.", "quantifier": "every state and message", "why_tests_cant": "for all states", "anchors": ["src/ndt_mapper.cpp:Mapper::poseCallback"]}
{"id": "C70", "title": "Loop closures only join distant-in-time scans and are vetted", "statement": "Every loop-closure constraint starts at a scan at least rolling_depth older than its end, is switchable, has a finite score strictly better than the typical response, and at most global_search_limit candidates are matched per scan (limit >= 1); each scan index is processed at most once, in order.", "quantifier": "every graph whose scans are numbered in order (as saving writes them) and has fewer than 2^31 scans, every matcher behaviour and every schedule", "why_tests_cant": "for all histories", "anchors": ["src/ndt_mapper.cpp:Mapper::loopClosureThread"]}
{"id": "C71", "title": "Loop closure matches against the candidate and its neighbours on both sides", "statement": "The candidate region used to verify a loop closure contains the candidate scan and one additional scan on either side (source comment).", "quantifier": "every candidate index", "why_tests_cant": "off-by-one in an iterator range", "anchors": ["src/ndt_mapper.cpp:Mapper::loopClosureThread"]}
{"id": "C72", "title": "The loop-closure acceptance threshold stays meaningful", "statement": "The typical matcher response remains a number in [-1, 0] for every history of matched scans, so loop closures remain possible.", "quantifier": "every history of scans, including a scan with no valid returns", "why_tests_cant": "needs one particular scan in the history", "anchors": ["src/ndt_mapper.cpp:Mapper::laserCallback", "src/ndt_mapper.cpp:Mapper::loopClosureThread"]}
{"id": "C73", "title": "Thread roles", "statement": "Only the spin thread adds scans and changes the tracked poses; the loop-closure thread adds no scans; the publish thread alters neither graph nor tracked poses (README, Threading Notes).", "quantifier": "every schedule", "why_tests_cant": "for all schedules", "anchors": ["src/ndt_mapper.cpp:Mapper::laserCallback", "src/ndt_mapper.cpp:Mapper::loopClosureThread", "src/ndt_mapper.cpp:Mapper::mapPublishThread"]}
{"id": "C74", "title": "No thread deadlocks on the two mutexes", "statement": "No thread ever waits for one mutex while holding the other or holding it already, so from every reachable state some thread can proceed.", "quantifier": "every schedule", "why_tests_cant": "deadlocks depend on the schedule", "anchors": ["src/ndt_mapper.cpp:Mapper::laserCallback", "src/ndt_mapper.cpp:Mapper::poseCallback", "src/ndt_mapper.cpp:Mapper::loopClosureThread", "src/ndt_mapper.cpp:Mapper::mapPublishThread"]}
{"id": "C75", "title": "The loop-closure thread never uses missing objects", "statement": "The loop-closure thread never dereferences a scan matcher that does not exist yet and never reads a scan index that is not in the current graph, whatever is loaded when.", "quantifier": "every schedule of load requests and loop-closure iterations", "why_tests_cant": "races with map loading and start-up", "anchors": ["src/ndt_mapper.cpp:Mapper::loopClosureThread", "src/ndt_mapper.cpp:Mapper::configure"]}
{"id": "C76", "title": "Localization keeps its global map", "statement": "While the particle filter is in use, the global matcher contains all scans of the map (README: when use_particle_filter is set, mapping is disabled and a global NDT is created).", "quantifier": "every schedule with use_particle_filter set", "why_tests_cant": "depends on the loop-closure thread running", "anchors": ["src/ndt_mapper.cpp:Mapper::laserCallback", "src/ndt_mapper.cpp:Mapper::loopClosureThread"]}
{"id": "C77", "title": "The published transform pairs poses of the same instant", "statement": "The robot pose and odometry pose used for one published transform were stored by the same callback.", "quantifier": "every schedule of callbacks and publisher", "why_tests_cant": "torn reads depend on the schedule", "anchors": ["src/ndt_mapper.cpp:Mapper::mapPublishThread", "src/ndt_mapper.cpp:Mapper::poseCallback"]}
{"id": "C78", "title": "Optimization cadence", "statement": "The optimizer runs only after new loop closures and only when more than optimization_node_limit scans were added since its last run.", "quantifier": "every history, including loading a smaller map", "why_tests_cant": "unsigned wrap-around after loading a smaller map", "anchors": ["src/ndt_mapper.cpp:Mapper::loopClosureThread", "src/ndt_mapper.cpp:Mapper::configure"]}
{"id": "C79", "title": "Odometry constraints describe the measured motion", "statement": "The constraint added between consecutive scans has the relative pose given by odometry plus the scan-match correction, also after the graph was optimised or a loop was closed.", "quantifier": "every history of scans, loop closures and optimizations", "why_tests_cant": "needs an optimization between two scans", "anchors": ["src/ndt_mapper.cpp:Mapper::laserCallback", "src/ndt_mapper.cpp:Mapper::loopClosureThread"]}
{"id": "C80", "title": "When optimize is defined", "statement": "On a graph whose first constraints are those already given to the solver, optimize finishes (without aborting and without reading outside the scans) exactly if there are no scans, or every new constraint joins two different existing scans and some constraint touches the first scan.", "quantifier": "every graph and every solver state reached by earlier calls", "why_tests_cant": "aborting inside a library depends on the graph topology", "anchors": ["src/ceres_solver.cpp:CeresSolver::optimize", "src/ceres_solver.cpp:CeresSolver::addConstraint"]}
{"id": "C81", "title": "Free cells lie along the beam", "statement": "Every cell a beam marks as free is within one cell of the straight line from the cell of the sensor to the cell of the point.", "quantifier": "every pair of start and end cells", "why_tests_cant": "a deviation of a cell on some slopes is invisible on rendered maps", "anchors": ["src/occupancy_grid.cpp:OccupancyGrid::getMsg"]}
{"id": "C82", "title": "The laser's mounting is learned once", "statement": "The laser frame and the laser's pose on the robot are those of the first message for which tf2 knows the transform; they are never changed by later messages, requests or other threads, and without such a message the node knows no laser.", "quantifier": "every sequence of messages, requests and thread steps", "why_tests_cant": "needs transforms that appear late or change", "anchors": ["src/ndt_mapper.cpp:Mapper::laserCallback"]}
{"id": "C83", "title": "Upside-down lasers are recognised", "statement": "The laser is treated as mounted upside down exactly if its z axis points down.", "quantifier": "every orientation of the laser", "why_tests_cant": "tests use level or exactly inverted lasers", "anchors": ["src/ndt_mapper.cpp:Mapper::laserCallback"]}
{"id": "C84", "title": "One range limit for everything", "statement": "The range limit is max_range if that is not negative and range_max of the first laser message otherwise; it never changes afterwards, and both scan matchers were initialised with it and with their own configured parameters.", "quantifier": "every sequence of messages with non-negative range_max, every schedule", "why_tests_cant": "needs messages with different range_max values before and after the transform is known", "anchors": ["src/ndt_mapper.cpp:Mapper::laserCallback", "src/scan_matcher_ndt.cpp:ScanMatcherNDT::initialize"]}
{"id": "C85", "title": "What one mapping scan does", "statement": "With mapping enabled and no other thread interfering, an accepted laser message appends exactly one scan (next id, the message's points, pose = odometry prediction plus matcher correction against the rolling window) and one constraint from the previous last scan to it; robot and odometry pose are updated together, the map is marked for publication, the typical response is smoothed, all mutexes are released. The first scan of a map is put at the origin without constraint.", "quantifier": "every state between callbacks and every message", "why_tests_cant": "tests check parts of the callback in isolation", "anchors": ["src/ndt_mapper.cpp:Mapper::laserCallback"]}
{"id": "C86", "title": "Localization does not change the map", "statement": "With mapping disabled and without the filter, an accepted message changes no scan, no constraint and not the publication flag; the robot pose becomes the odometry prediction plus the correction found against the global matcher.", "quantifier": "every state between callbacks and every message", "why_tests_cant": "needs a loaded map and a live sensor", "anchors": ["src/ndt_mapper.cpp:Mapper::laserCallback"]}
{"id": "C87", "title": "What one filter step does", "statement": "With the particle filter on a map that is not empty, an accepted message moves the filter by the motion odometry measured since the last accepted message (in the robot's frame), weighs it with the scores of the global matcher, resamples with the configured KLD parameters and reports the filter's mean as robot pose; the graph is unchanged.", "quantifier": "every state between callbacks and every message", "why_tests_cant": "frames and signs of the motion need poses with different headings", "anchors": ["src/ndt_mapper.cpp:Mapper::laserCallback", "src/particle_filter.cpp:ParticleFilter::update"]}
{"id": "C88", "title": "What an accepted loop closure does", "statement": "When the global matcher's response is finite and better than the typical response, the scan is moved by the correction, a switchable constraint from the candidate to the scan with the information of the matcher's covariance is appended, the map is marked for publication, the robot pose and the odometry pose are unchanged, and all mutexes are released.", "quantifier": "every state of the loop-closure thread before the match", "why_tests_cant": "needs a crafted loop", "anchors": ["src/ndt_mapper.cpp:Mapper::loopClosureThread"]}
{"id": "C89", "title": "The sweep is timed from its first to its last reading", "statement": "The robot's pose at the end of a sweep is looked up (number of readings - 1) time increments after the message's stamp, rounded down to whole nanoseconds, for every message.", "quantifier": "every number of readings (including none) and every time increment", "why_tests_cant": "an unsigned subtraction wraps for a message without readings", "anchors": ["src/ndt_mapper.cpp:Mapper::laserCallback"]}
{"id": "C90", "title": "Callbacks and publisher rounds finish", "statement": "Every callback finishes after at most eight locked or unlocked sections of its own, and neither it nor a round of the publisher waits for a mutex forever when the scheduler is fair.", "quantifier": "every infinite fault-free execution with a fair scheduler", "why_tests_cant": "starvation needs unbounded executions", "anchors": ["src/ndt_mapper.cpp:Mapper::laserCallback", "src/ndt_mapper.cpp:Mapper::poseCallback", "src/ndt_mapper.cpp:Mapper::configure", "src/ndt_mapper.cpp:Mapper::mapPublishThread"]}
{"id": "C91", "title": "Every loop-closure pass ends", "statement": "Every pass of the loop-closure thread over the scans comes back to its sleep, also when scans are added or maps are loaded meanwhile.", "quantifier": "every infinite fault-free execution with a fair scheduler and fewer than 2^64 scans", "why_tests_cant": "termination of a loop over data that other threads change", "anchors": ["src/ndt_mapper.cpp:Mapper::loopClosureThread"]}
{"id": "C92", "title": "Every scan gets its loop-closure attempt", "statement": "While mapping is enabled, the loop-closure thread looks up candidates for every scan of the graph beyond the first rolling_depth + 1 scans.", "quantifier": "every infinite fault-free execution with a fair scheduler", "why_tests_cant": "progress counters must be right after any number of scans, loads and passes", "anchors": ["src/ndt_mapper.cpp:Mapper::loopClosureThread", "src/ndt_mapper.cpp:Mapper::configure"]}
{"id": "C93", "title": "Map updates are published", "statement": "Whenever map_update_available_ is set, the map and the graph of that moment or later are published eventually; every scan added by a laser message is eventually in a published map (as long as no other map is loaded).", "quantifier": "every infinite fault-free execution with a fair scheduler", "why_tests_cant": "a lost update needs the flag to be set between the publisher's test and its reset", "anchors": ["src/ndt_mapper.cpp:Mapper::mapPublishThread", "src/ndt_mapper.cpp:Mapper::laserCallback"]}
{"id": "C94", "title": "The transform keeps being published", "statement": "As long as the graph is not empty, the map to odom transform is published again and again, whatever the other threads do.", "quantifier": "every infinite fault-free execution with a fair scheduler", "why_tests_cant": "starvation needs unbounded executions", "anchors": ["src/ndt_mapper.cpp:Mapper::mapPublishThread"]}
{"id": "C95", "title": "The graph only grows", "statement": "As long as no map is loaded, every scan stays in the graph at its index with its id and points, and every constraint stays unchanged; the threads only append and move scans.", "quantifier": "every pair of states along every execution of the three threads", "why_tests_cant": "every interleaving of callbacks, loop closure and optimization", "anchors": ["src/ndt_mapper.cpp:Mapper::laserCallback", "src/ndt_mapper.cpp:Mapper::poseCallback", "src/ndt_mapper.cpp:Mapper::loopClosureThread", "src/ndt_mapper.cpp:Mapper::configure"]}
{"id": "C96", "title": "Every scan is connected to the first", "statement": "Outside the moment in which a laser callback adds its scan, the constraints that are not loop closures join scan 1, 2, ..., n-1, in this order, each to an earlier scan; so every scan is linked to the first one. A map saved from such a graph is again of this kind.", "quantifier": "every history in which the maps loaded are of this kind", "why_tests_cant": "every mixture of laser scans, initial poses, loop closures, saves and loads", "anchors": ["src/ndt_mapper.cpp:Mapper::laserCallback", "src/ndt_mapper.cpp:Mapper::poseCallback", "src/graph.cpp:Graph::save", "src/graph.cpp:Graph::Graph"]}
{"id": "C97", "title": "The optimizer never aborts the node", "statement": "Whenever the loop-closure thread runs the optimizer, every constraint it hands to Ceres refers to scans of the graph and the first scan can be held constant, so the optimizer neither reads out of bounds nor makes Ceres abort.", "quantifier": "every reachable state in which the optimizer runs", "why_tests_cant": "depends on the interleaving with the laser callback", "anchors": ["src/ndt_mapper.cpp:Mapper::loopClosureThread", "src/ndt_mapper.cpp:Mapper::laserCallback", "src/ceres_solver.cpp:CeresSolver::optimize"]}
{"id": "C98", "title": "The map stays where it began", "statement": "The first scan of the graph keeps its pose at every step of every thread (as long as no map is loaded); a map begun by laser messages has its first scan exactly at the origin forever.", "quantifier": "every history; contract of Ceres: constant parameter blocks keep their values", "why_tests_cant": "any number of loop closures and optimizations", "anchors": ["src/ndt_mapper.cpp:Mapper::loopClosureThread", "src/ceres_solver.cpp:CeresSolver::optimize", "src/ndt_mapper.cpp:Mapper::laserCallback"]}
{"id": "C99", "title": "Shared data is written under its mutex", "statement": "A thread that adds or removes scans or constraints of the graph, or moves a scan that is in the graph, holds graph_mutex_; whoever changes the poses the publisher reads holds prev_pose_mutex_.", "quantifier": "every step of every reachable state", "why_tests_cant": "a data race shows only under particular interleavings", "anchors": ["src/ndt_mapper.cpp:Mapper::loopClosureThread", "src/ndt_mapper.cpp:Mapper::laserCallback", "src/ndt_mapper.cpp:Mapper::poseCallback", "src/ndt_mapper.cpp:Mapper::configure"]}
{"id": "C100", "title": "Stopping the node", "statement": "Destroying the node (unloading the component) completes: the destructor joins both threads and returns, after which no thread of the node runs and no mutex is held.", "quantifier": "every fair execution of the node with rclcpp::ok(), the threads' while loops and the destructor", "why_tests_cant": "a hang on destruction depends on what the threads are doing and on who shuts the context down", "anchors": ["src/ndt_mapper.cpp:Mapper::~Mapper", "src/ndt_mapper.cpp:Mapper::loopClosureThread", "src/ndt_mapper.cpp:Mapper::mapPublishThread"]}
{"id": "C101", "title": "Mapping off freezes the map", "statement": "After mapping is switched off (and no request switches it on or loads a map) the map does not change any more: every map, graph and file published or saved from then on is the same, whatever messages arrive. A node started for localization keeps exactly the map of its file.", "quantifier": "every schedule of the three threads after the request; every history of a localization node", "why_tests_cant": "a loop closure may be under way when the request arrives", "anchors": ["src/ndt_mapper.cpp:Mapper::configure", "src/ndt_mapper.cpp:Mapper::loopClosureThread", "src/ndt_mapper.cpp:Mapper::laserCallback", "src/ndt_mapper.cpp:Mapper::poseCallback"]}
{"id": "C102", "title": "Maps survive from session to session", "statement": "A file saved by a running node holds the map of that moment, and a node that starts from it or loads it has the same scans and constraints; over any number of sessions, each starting from or loading files of earlier ones with its own parameters, the maps keep scans numbered in order and connected to the first.", "quantifier": "every history of any number of sessions (fewer than 2^31 scans each)", "why_tests_cant": "chains of sessions with interleaved threads", "anchors": ["src/ndt_mapper.cpp:Mapper::configure", "src/ndt_mapper.cpp:Mapper::Mapper", "src/graph.cpp:Graph::save", "src/graph.cpp:Graph::Graph"]}
{"id": "C103", "title": "No step leaves its memory", "statement": "No step of the node reads or writes outside a container, uses an iterator outside its range, dereferences a null pointer or makes a library abort: the only failures are numbers that do not fit an integer type, weights that are no distribution, and searches that do not end. Conditions: rolling_depth is at least 9 and a particle filter has particles; fewer than 2^31 scans and cells, 2^52 points per scan; no map is loaded while the node runs; laser messages have readings, the random distribution returns indices of particles; neither optimizer nor publisher starts between the two halves of adding a scan; the loop closure thread finds no map before a laser message was seen; drawing the occupancy grid is left out (C40, C41).", "quantifier": "every reachable state and every step of every schedule that keeps the conditions, binary64 with any math library", "why_tests_cant": "all interleavings, all inputs and all parameters; undefined behaviour need not show", "anchors": ["src/ndt_mapper.cpp:Mapper::laserCallback", "src/ndt_mapper.cpp:Mapper::loopClosureThread", "src/ndt_mapper.cpp:Mapper::mapPublishThread", "src/ndt_mapper.cpp:Mapper::poseCallback", "src/scan_matcher_ndt.cpp:ScanMatcherNDT::matchScan", "src/particle_filter.cpp:ParticleFilter::resample"]}
{"id": "C104", "title": "Integer parameters", "statement": "Every integer parameter (rolling_depth, global_search_limit, optimization_node_limit, laser_max_beams, min_particles, max_particles) is either used with the value given or refused when the node starts.", "quantifier": "every value of the type int for each parameter; every history of the node with it", "why_tests_cant": "the effect of a value shows only over a long run, as something that never happens", "anchors": ["src/ndt_mapper.cpp:Mapper::Mapper", "src/ndt_mapper.cpp:Mapper::loopClosureThread", "src/scan_matcher_ndt.cpp:ScanMatcherNDT::initialize", "src/particle_filter.cpp:ParticleFilter::ParticleFilter"]}
{"id": "C105", "title": "Localization uses the current map", "statement": "While mapping is off, laser scans are matched (tracking and particle filter alike) against the map that is loaded at that moment, the one the node publishes, whatever was requested before.", "quantifier": "every history of requests, maps and messages", "why_tests_cant": "a node matching against an old map keeps answering and looks healthy", "anchors": ["src/ndt_mapper.cpp:Mapper::laserCallback", "src/ndt_mapper.cpp:Mapper::configure"]}
{"id": "C106", "title": "A sweep across the seam of the headings", "statement": "The points a sweep is converted to depend on the message and on where the robot was at the start and the end of the sweep, not on whether its heading, which tf2 gives in [-pi, pi], passed +-pi meanwhile.", "quantifier": "all odometry poses, laser mountings and messages", "why_tests_cant": "headings at the seam are one in infinitely many directions; recorded data need not drive through it", "anchors": ["src/ndt_mapper.cpp:Mapper::laserCallback"]}
{"id": "C107", "title": "The robot continues from where it was put", "statement": "Between callbacks the robot's pose is the one stored last, by an accepted initial pose or by a processed laser message, and the pose predicted for the next processed message is that pose moved by what odometry measured since; so a robot that is given an initial pose is tracked from there.", "quantifier": "every reachable state and every message", "why_tests_cant": "an empty map together with an initial pose needs an unusual history", "anchors": ["src/ndt_mapper.cpp:Mapper::laserCallback", "src/ndt_mapper.cpp:Mapper::poseCallback"]}
{"id": "C108", "title": "No transform before the robot is localized", "statement": "A map to odom transform is published only after the robot was localized in the current map: since the map was created or loaded, an initial pose was accepted or a laser message was processed.", "quantifier": "every schedule of the three threads, maps started from a file, begun and loaded", "why_tests_cant": "the publisher's round has to fall between two steps of a callback, or before the first initial pose", "anchors": ["src/ndt_mapper.cpp:Mapper::mapPublishThread", "src/ndt_mapper.cpp:Mapper::laserCallback", "src/ndt_mapper.cpp:Mapper::poseCallback", "src/ndt_mapper.cpp:Mapper::configure"]}
{"id": "C109", "title": "A converged filter needs fewer particles", "statement": "resample draws exactly as many particles as the KLD bound asks for the number of occupied bins (half a metre, 0.2671 rad), at least min_particles and at most max_particles; so when all particles are in one bin min_particles remain.", "quantifier": "every filter, every draw, all KLD parameters", "why_tests_cant": "the count depends on the random draws and on the bins they fall in; tests use one cloud", "anchors": ["src/particle_filter.cpp:ParticleFilter::resample", "include/ndt_2d/kd_tree.hpp:KDTree::getLeafCount"]}
{"id": "C110", "title": "Distant particles are in different bins", "statement": "Two keys that differ by at least the bin size in some coordinate are counted by getLeafCount as two bins.", "quantifier": "all keys and bin sizes", "why_tests_cant": "needs keys on both sides of zero; bins away from the origin behave", "anchors": ["include/ndt_2d/kd_tree.hpp:KDTree::insert", "include/ndt_2d/kd_tree.hpp:KDTree::getLeafCount"]}
{"id": "C111", "title": "More turning, more noise", "statement": "When the robot turns on the spot, the standard deviations of the motion noise do not shrink as the turn (up to half a turn) gets larger.", "quantifier": "all turns and noise parameters", "why_tests_cant": "noise is random; a test would need its distribution", "anchors": ["src/motion_model.cpp:MotionModel::sample"]}
{"id": "C112", "title": "Every noise parameter counts", "statement": "Raising any of odom_alpha1 to odom_alpha5 never lowers a standard deviation of the motion noise, and for each of them there is a motion for which it raises one.", "quantifier": "all motions and noise parameters; exact arithmetic, the monotonicity also in doubles", "why_tests_cant": "noise is random; a test would need its distribution", "anchors": ["src/motion_model.cpp:MotionModel::sample"]}
{"id": "C113", "title": "The random numbers asked for exist", "statement": "Initialising the particle filter and applying an odometry motion only use values std::normal_distribution is specified to return: the resulting particles do not depend on what it does when its standard deviation is not positive.", "quantifier": "all motions, noise parameters, initial poses with covariances, particles and random generators", "why_tests_cant": "a test sees what one standard library does with a zero deviation", "anchors": ["src/motion_model.cpp:MotionModel::sample", "src/particle_filter.cpp:ParticleFilter::init", "src/ndt_mapper.cpp:Mapper::poseCallback"]}
{"id": "C114", "title": "Particles start around the initial pose", "statement": "When the filter is initialised at a position and every random draw returns the centre of its distribution, every particle is at that position with that heading, up to whole turns; the number of particles does not change.", "quantifier": "all initial poses, deviations and particle sets; double arithmetic", "why_tests_cant": "the error grows with the coordinates; tests start near the origin", "anchors": ["src/particle_filter.cpp:ParticleFilter::init"]}
{"id": "C115", "title": "Every constraint can be weighed", "statement": "The error the optimizer is handed for a constraint of the graph is a finite number at some poses, and it is zero exactly if the poses agree with the measured motion: the information of every odometry, loop-closure and initial-pose constraint is finite and positive definite.", "quantifier": "all executions, maps, scans and search windows", "why_tests_cant": "the weights are not visible; one constraint of this kind disables the optimizer for the whole map", "anchors": ["src/ndt_mapper.cpp:Mapper::laserCallback", "src/scan_matcher_ndt.cpp:ScanMatcherNDT::matchScan", "src/constraint.cpp:makeConstraint", "src/ceres_solver.cpp:CeresSolver::addConstraint"]}
{"id": "C116", "title": "The optimizer survives a scan that matches nothing", "statement": "After an optimisation that failed because one constraint cannot be weighed (its error is not a finite number at any poses), a later optimisation of a map in which all constraints can be weighed, for instance a newly loaded one, can still succeed and move the scans.", "quantifier": "all maps, sequences of optimisations and executions of the node; any Ceres that reports an unusable solution when an error cannot be evaluated", "why_tests_cant": "needs a long drive after one bad scan, and looks like a map that merely does not improve", "anchors": ["src/ceres_solver.cpp:CeresSolver::optimize", "src/ceres_solver.cpp:CeresSolver::addConstraint", "src/ndt_mapper.cpp:Mapper::loopClosureThread"]}
{"id": "C117", "title": "Mapping resumes where the robot is put", "statement": "When a map was loaded and the robot was put next to one of its scans with an initial pose, the next laser scan is matched against the map around that pose: what was mapped there takes part in the match, and the constraint added for the scan can be weighed if the scan sees it.", "quantifier": "all maps, initial poses and laser scans, rolling depths and executions", "why_tests_cant": "needs a map longer than the rolling window and a restart away from its end", "anchors": ["src/ndt_mapper.cpp:Mapper::poseCallback", "src/ndt_mapper.cpp:Mapper::laserCallback"]}
{"id": "C118", "title": "Cell statistics in doubles are close to those of the points", "statement": "With between 3 and 2^40 finite points whose coordinates do not exceed M, the count a cell reports after compute is exact, its mean is within 4 M (n+1) 2^-53 and each entry of its covariance within 32 M^2 (n+1) 2^-53 of the mean and the sample covariance of the points, and the covariance is exactly symmetric; so cells fed the same points in different orders differ by at most twice as much.", "quantifier": "every sequence of addPoint/compute calls, every M between 2^-400 and 2^400; IEEE doubles", "why_tests_cant": "rounding errors accumulate over unbounded sequences; tests use small numbers near the origin", "anchors": ["src/ndt_model.cpp:Cell::addPoint", "src/ndt_model.cpp:Cell::compute"]}
{"id": "C119", "title": "A cell's likelihood does not exceed 1 in doubles", "statement": "A computed cell whose points are not all equal scores every query point with a finite likelihood between 0 and 1 in the double arithmetic the code runs in.", "quantifier": "every list of finite points that do not all coincide and every finite query point; IEEE doubles", "why_tests_cant": "the covariance is a difference of large numbers: the sign of a small variance is lost far from the origin, for instance along a wall", "anchors": ["src/ndt_model.cpp:Cell::compute", "src/ndt_model.cpp:Cell::score"]}
{"id": "C120", "title": "Scores are normalised in doubles", "statement": "matchScan, scoreScan and scorePoints return finite values in [-1, 0] on every map none of whose cells holds five or more points that all coincide, in the double arithmetic the code runs in.", "quantifier": "every list of scans with finite poses and points, every non-empty query scan; IEEE doubles", "why_tests_cant": "needs a map far from the origin; the score is then silently better than perfect", "anchors": ["src/scan_matcher_ndt.cpp:ScanMatcherNDT::scorePoints", "src/scan_matcher_ndt.cpp:ScanMatcherNDT::scoreScan", "src/scan_matcher_ndt.cpp:ScanMatcherNDT::matchScan", "src/ndt_model.cpp:Cell::compute"]}
{"id": "C121", "title": "Search positions follow the poses of the scans", "statement": "When the barycenters are in use, whenever no member function of a scan is executing, the position under which findNearest considers the scan is the barycenter of its current pose and points; a loop closure correction or an optimisation is never followed by searches with the old position.", "quantifier": "every interleaving of setPose and getBarycenterPose by the two threads; every execution of the node, with any scans asked for their barycenter in between", "why_tests_cant": "the cache is wrong only if the executor thread reads the scan between two assignments of the loop closure thread", "anchors": ["src/scan.cpp:Scan::setPose", "src/scan.cpp:Scan::getBarycenterPose", "src/scan.cpp:Scan::update", "src/ndt_mapper.cpp:Mapper::loopClosureThread", "src/ndt_mapper.cpp:Mapper::poseCallback"]}
{"id": "C122", "title": "The correction returned is the best one tried, in doubles", "statement": "matchScan, in the double arithmetic it runs in, returns the first of the corrections it tries that has the least score (minus the likelihood of the corrected points), and that score divided by the number of beams; if no correction scores below 0 it leaves the pose alone and returns 0 divided by the number of beams; scores that are not numbers never win; a returned correction is finite and lies in the search window.", "quantifier": "every map, scan, search window, resolution and libm; IEEE doubles", "why_tests_cant": "the order of comparisons, ties and not-a-number scores decide; tests compare the winner with an expected pose", "anchors": ["src/scan_matcher_ndt.cpp:ScanMatcherNDT::matchScan", "src/ndt_model.cpp:NDT::likelihood"]}
{"id": "C123", "title": "The NDT covers its declared area in doubles", "statement": "In double arithmetic every finite point of the rectangle [origin, origin+size] is assigned a cell and every point left of or below the origin is assigned none; a point whose distance to the borders of its cell_size square (column a, row b) is at least (a+2) 2^-52, respectively (b+2) 2^-52, cell sizes is assigned the cell of that square.", "quantifier": "every positive cell size, size, origin and point (for the squares: cell sizes of at least 2^-1000, coordinates up to 2^1000); NDTs of fewer than 2^31 cells; IEEE doubles", "why_tests_cant": "quotients next to a whole number round across it; tests use binary fractions", "anchors": ["src/ndt_model.cpp:NDT::NDT", "src/ndt_model.cpp:NDT::getIndex"]}
{"id": "C124", "title": "addScans covers everything the laser can see, in doubles", "statement": "After addScans, every finite point within range_max (in x and in y) of the pose of one of the added scans is assigned a cell of the NDT, in the double arithmetic in which the bounding box and the number of cells are computed.", "quantifier": "every list of scans with finite poses, every finite range and positive resolution for which addScans succeeds; IEEE doubles", "why_tests_cant": "a box rounded the wrong way loses the outermost readings only for particular poses", "anchors": ["src/scan_matcher_ndt.cpp:ScanMatcherNDT::addScans", "src/ndt_model.cpp:NDT::NDT", "src/ndt_model.cpp:NDT::getIndex"]}
{"id": "C125", "title": "Angles are normalised to rounding precision, in doubles", "statement": "M_PI is the double nearest to pi. angles::normalize_angle of a finite angle a returns a finite value in [-M_PI, M_PI] that stands for the direction of a up to 2^-51 (|a|+8); NormalizeAngle of the error term returns a value of magnitude at most pi + 2^-51 (|a|+8) that stands for the direction of a up to the same error.", "quantifier": "every finite double of magnitude up to 2^1000; fmod exact as the C standard requires; IEEE doubles", "why_tests_cant": "the error depends on how a rounds against multiples of the rounded 2 pi; tests use a handful of small angles", "anchors": ["include/ndt_2d/ceres_solver_pose.hpp:NormalizeAngle", "src/ndt_mapper.cpp:Mapper::laserCallback", "src/particle_filter.cpp:ParticleFilter::init"]}
{"id": "C126", "title": "Scans are processed after motion only, in doubles", "statement": "Once the map is not empty, in double arithmetic, a laser message after which odometry moved (exactly measured) less than minimum_travel_distance (1-2^-48) and turned less than minimum_travel_rotation minus 2^-50 (|th1|+|th2|+8) is ignored and changes nothing; a message after which it moved at least minimum_travel_distance (1+2^-48), or turned at least minimum_travel_rotation plus that error, is processed.", "quantifier": "every reachable and unreachable state of the node, every odometry pose with coordinates up to 2^400, every threshold; fmod exact; IEEE doubles", "why_tests_cant": "the decision near the threshold is a comparison of rounded squares; tests drive whole metres", "anchors": ["src/ndt_mapper.cpp:Mapper::laserCallback"]}
{"id": "C127", "title": "A new constraint has zero residual in doubles", "statement": "The error term of a constraint made from two scans, evaluated in double arithmetic at the poses of these scans, is exactly zero in all three components, for every covariance whose information matrix has a finite factor.", "quantifier": "every pair of scans with coordinates and headings up to 2^400, every covariance with finite factor of its inverse, every libm with bounded sine and cosine; IEEE doubles", "why_tests_cant": "the constraint and the error term compute the transform in different files; a difference of one rounding shows only for some poses", "anchors": ["src/constraint.cpp:makeConstraint", "include/ndt_2d/ceres_solver_pose.hpp:CeresSolverPose::operator()", "src/ceres_solver.cpp:CeresSolver::addConstraint"]}
{"id": "C128", "title": "Particle weights are a probability distribution in doubles", "statement": "In double arithmetic, after the constructor and any sequence of init, update, measure and resample calls, there are as many weights as particles, every weight is finite and in [0, 1], their sum is within 2^-51 (n+1) of 1 for n particles, and the next resample finds weights std::discrete_distribution accepts.", "quantifier": "every history of calls, at most 2^40 particles, every libm and every random source; measure with finite scores that are not positive, not all zero and not below -2^900; std::discrete_distribution returns indices of positive weight; IEEE doubles", "why_tests_cant": "rounding, underflow and subnormal weights accumulate over histories; tests make a few calls", "anchors": ["src/particle_filter.cpp:ParticleFilter::updateStatistics", "src/particle_filter.cpp:ParticleFilter::measure", "src/particle_filter.cpp:ParticleFilter::resample", "src/particle_filter.cpp:ParticleFilter::update", "src/particle_filter.cpp:ParticleFilter::init"]}
{"id": "C129", "title": "The filter reports the mean of its particles in doubles", "statement": "In double arithmetic, after any such history, each coordinate of the position getMean returns is finite, within 2^-51 (n+2) M of the weighted mean of the n particles, and not outside their bounding box by more than twice that, where M bounds the coordinates of the particles.", "quantifier": "every history as for the weights, particles with finite coordinates up to M, every M in [2^-400, 2^400]; IEEE doubles", "why_tests_cant": "the error grows with the number of particles and depends on their order; tests compare a mean of few particles with a tolerance", "anchors": ["src/particle_filter.cpp:ParticleFilter::updateStatistics", "src/particle_filter.cpp:ParticleFilter::getMean"]}
{"id": "C130", "title": "Scan points are placed to rounding precision, in doubles", "statement": "NDT::addScan, NDT::likelihood, the bounds and the rays of the occupancy grid, and every candidate of the correlative search move the points of a scan by the same rigid motion: in double arithmetic each coordinate is within 2^-49 M of the exact position of the point seen from the pose of the scan (for a candidate of the search, within 2^-49 M (1 + |heading|) of the position seen from the corrected pose), M a bound on the coordinates.", "quantifier": "every scan, every pose and correction with coordinates up to M, every M in [2^-400, 2^400], every libm whose sine and cosine are within 2^-52 of the true values; IEEE doubles", "why_tests_cant": "the five places compute the rotation with different operation orders and matrix types; tests use headings for which the errors vanish", "anchors": ["src/ndt_model.cpp:NDT::addScan", "src/ndt_model.cpp:NDT::likelihood", "src/occupancy_grid.cpp:OccupancyGrid::updateBounds", "src/occupancy_grid.cpp:OccupancyGrid::getMsg", "src/scan_matcher_ndt.cpp:ScanMatcherNDT::matchScan"]}
{"id": "C131", "title": "A constraint reproduces the relative pose in doubles", "statement": "In double arithmetic the transform of makeConstraint(from, to) is finite, and composing the pose of the first scan exactly with it gives the position of the second scan within 2^-47 M in each coordinate and its heading within 2^-53 of their difference, M a bound on the coordinates.", "quantifier": "every pair of scans with coordinates up to M, every M in [2^-400, 2^400], headings up to 2^1000 apart, every covariance, every libm whose sine and cosine are within 2^-52; IEEE doubles", "why_tests_cant": "rounding depends on the heading and the distance of the scans; tests use right angles", "anchors": ["src/constraint.cpp:makeConstraint"]}
{"id": "C132", "title": "The predicted pose follows odometry in doubles", "statement": "In double arithmetic the initial pose guess of a processed scan is within 2^-48 M (|robot heading|+|odometry heading|+9) of the previous robot pose moved exactly as odometry moved, its heading is in [-M_PI, M_PI] and stands for the exact heading within 2^-49 (sum of the three headings + 9).", "quantifier": "every robot pose and pair of odometry poses with coordinates up to M, every M in [2^-400, 2^400], headings up to 2^400; sine and cosine within 2^-52, fmod exact; IEEE doubles", "why_tests_cant": "the guess rotates a difference of odometry positions by a normalised difference of headings; wrap-around and cancellation show only for some headings", "anchors": ["src/ndt_mapper.cpp:Mapper::laserCallback"]}
{"id": "C133", "title": "The published transform is consistent in doubles", "statement": "In double arithmetic the published map->odom transform maps every point given in the robot frame through odometry to within 2^-46 M of the point seen from the robot pose, and the published quaternion is a rotation about the vertical axis: x = y = 0, squared norm within 2^-45 of 1, sine and cosine of the angle within 2^-45 of those of the difference of the headings.", "quantifier": "every robot and odometry pose with coordinates up to M, every point up to M, every M in [2^-400, 2^400], every finite heading, both signs of the trace; sine and cosine within 2^-52; IEEE doubles", "why_tests_cant": "tf2 rejects quaternions that are not normalised; the conversion branches on the sign of a rounded trace, which tests near half turns would have to hit", "anchors": ["src/ndt_mapper.cpp:Mapper::mapPublishThread"]}
{"id": "C134", "title": "The barycenter is the centre of mass in doubles", "statement": "In double arithmetic, after any history of setPose/setPoints/getBarycenterPose calls, the barycenter pose of a scan with n points has the scan's heading and lies within 2^-52 (n+8) M in each coordinate of the mean of the points seen from the scan's pose; a scan without points has its pose as barycenter.", "quantifier": "every history of calls, every pose and up to 2^40 points with coordinates up to M, every M in [2^-400, 2^400], every finite heading; sine and cosine within 2^-52; IEEE doubles", "why_tests_cant": "the rounding of a running sum grows with the number of points; loop-closure search uses the barycenter of every scan of a run", "anchors": ["src/scan.cpp:Scan::update", "src/scan.cpp:Scan::getBarycenterPose"]}
{"id": "C135", "title": "Laser readings land where they were seen, in doubles", "statement": "In double arithmetic the conversion of a laser message uses exactly the readings at most the maximum range, in order, with directions computed in single precision within 2^-22 (|angle_min| + i |angle_increment| + 2^-120); the point of reading i is within 2^-46 M (|turn|+1) in each coordinate of the polar point seen through the laser's mounting from the robot after the share i/n of its motion. For an inverted laser the same holds without reading 0, last to first, with directions negated and the share 1 - i/n.", "quantifier": "every mounting and pair of odometry poses with coordinates up to M, used readings up to M, every M in [2^-400, 2^400], up to 2^40 readings, turns up to 2^400, angle_min up to 2^60, angle_increment up to 2^20; sine and cosine within 2^-52; IEEE doubles and singles", "why_tests_cant": "three precisions and two roundings per direction meet in one expression; tests use one scan with round numbers", "anchors": ["src/ndt_mapper.cpp:Mapper::laserCallback"]}
{"id": "C136", "title": "The occupancy grid contains every scan it renders, in doubles", "statement": "In double arithmetic, rendering a growing list of scans again and again with one OccupancyGrid never leaves the grid's memory: every message has width*height values, and every point and every sensor of its scans lies in a cell of the grid, up to 1/1024 of a cell.", "quantifier": "every resolution r in [2^-300, 2^300], every history of renders in which the list of scans grows, coordinates up to 2^29 cells, sensors at most three cells outside the box of the origin and the points, extent (in cells, plus 2 per render and 14) in x times in y at most 2^31; sine and cosine within 2^-52; IEEE doubles", "why_tests_cant": "the bounds are floored quotients multiplied back, and drift by a cell per render for some resolutions; whether the cell of a point at the edge is inside depends on several roundings", "anchors": ["src/occupancy_grid.cpp:OccupancyGrid::getMsg", "src/occupancy_grid.cpp:OccupancyGrid::updateBounds"]}
{"id": "C137", "title": "The optimizer gets the derivatives of the residual", "statement": "Evaluated with Ceres' automatic differentiation, the error term of a constraint yields its value and its exact derivative in every direction of the six parameters, and the residual times these derivatives is the slope of its cost, unless the heading error is an odd multiple of half a turn, where the residual jumps.", "quantifier": "every measured transform, every square-root information matrix, every pair of poses, every direction; exact arithmetic; the rules of ceres::Jet as published", "why_tests_cant": "automatic differentiation ignores the jump of floor inside NormalizeAngle; that this is right almost everywhere cannot be seen from samples", "anchors": ["include/ndt_2d/ceres_solver_pose.hpp:PoseGraph2dErrorTerm::operator()", "include/ndt_2d/ceres_solver_pose.hpp:NormalizeAngle"]}
{"id": "C138", "title": "Optimization never makes the map worse", "statement": "Every call of CeresSolver::optimize leaves the sum of the squared weighted errors of the graph's constraints, evaluated at the poses of the graph's scans, at most as large as it was: the problem handed to Ceres is the graph's, each constraint once, between the right scans, and the poses written back are the ones of the solution.", "quantifier": "every sequence of optimize calls in which scans and constraints are only appended (poses may change in between), any constraints, any scans with different ids, any Ceres that keeps its nodes and whose usable solutions do not cost more than the initial values; real arithmetic", "why_tests_cant": "a test compares a few small graphs; a constraint dropped, doubled, or attached to the wrong node in some history shows only as a slightly worse map", "anchors": ["src/ceres_solver.cpp:CeresSolver::optimize", "src/ceres_solver.cpp:CeresSolver::addConstraint", "include/ndt_2d/ceres_solver_pose.hpp:PoseGraph2dErrorTerm"]}
{"id": "C139", "title": "Optimization leaves a consistent map alone", "statement": "If every constraint of the graph agrees with the poses of the scans it joins (for instance before any loop closure, when each constraint was just made from those poses), CeresSolver::optimize moves no scan that is linked to the first one: position unchanged, heading unchanged up to whole turns.", "quantifier": "every graph with positive definite information matrices, every earlier sequence of optimize calls in which scans and constraints are only appended, any Ceres that keeps its nodes, keeps constant blocks and whose usable solutions do not cost more than the initial values; real arithmetic", "why_tests_cant": "uniqueness of the minimum over all graphs and all solvers cannot be seen by running one solver on one graph; a wrong transform or a singular weight lets scans drift without any constraint complaining", "anchors": ["src/ceres_solver.cpp:CeresSolver::optimize", "src/ceres_solver.cpp:CeresSolver::addConstraint", "include/ndt_2d/ceres_solver_pose.hpp:PoseGraph2dErrorTerm"]}
{"id": "C140", "title": "Without noise particles follow odometry in doubles", "statement": "The motion update of the compiled filter, whose distributions are single precision: if the noise source returns its mean, every particle moves by the odometry motion rotated into its own heading, up to 2^-21 of the distance plus 2^-49 of the size of the coordinates, and turns by the odometry rotation up to 2^-20 rad and whole turns. Whatever the noise (up to 2^100), the headings after the update are finite and within [-M_PI, M_PI].", "quantifier": "all sets of particles with coordinates up to M, 1 <= M <= 2^100, all motions up to M longer than 1/100 + 2^-39 with rotations up to 8 rad, all noise parameters, any library with accurate sine, cosine, hypot and atan2 and exact fmod", "why_tests_cant": "the sampled motion is random, so a test can only look at averages with loose bounds; a wrong sign or frame in one quadrant, or precision lost far from the origin, stays inside them", "anchors": ["src/motion_model.cpp:MotionModel::sample"]}
{"id": "C141", "title": "Reported position variances are not negative", "statement": "The position variances the filter reports in doubles are not negative; the position covariance is symmetric, finite, and the weighted covariance of the particles up to rounding.", "quantifier": "every history of calls, up to 2^40 particles, coordinates up to M with 2^-400 <= M <= 2^400, scores and draws that keep the weights a distribution, any library", "why_tests_cant": "the sum of products and the product of the means cancel; the reported value depends on the rounding of every particle, and is negative for harmless inputs no test happens to use", "anchors": ["src/particle_filter.cpp:ParticleFilter::updateStatistics", "src/particle_filter.cpp:ParticleFilter::getCovariance"]}
{"id": "C142", "title": "What a score means", "statement": "The score of a scan at a pose is minus the mean, over min(laser_max_beams, n) of its points, of the map likelihood of the point moved to the pose; the points used are number floor(i n / k), i = 0 .. k-1. The score matchScan returns, when negative, is the score of the scan's pose plus the correction it returns.", "quantifier": "every map built from scans, every non-empty scan, pose, beam limit and search window", "why_tests_cant": "a closed form for every map and scan; tests compare single numbers", "anchors": ["src/scan_matcher_ndt.cpp:ScanMatcherNDT::scorePoints", "src/scan_matcher_ndt.cpp:ScanMatcherNDT::scoreScan", "src/scan_matcher_ndt.cpp:ScanMatcherNDT::matchScan"]}
{"id": "C143", "title": "A measurement weighs each particle by its own score", "statement": "measure moves no particle and sets the weight of each to its own score divided by the sum of all scores. init gives every particle the same weight 1/n, and update leaves the weights as they are.", "quantifier": "every filter state whose weights sum to 1 and match the particles, every score function, every draw", "why_tests_cant": "needs all particle sets and score functions; the distribution property C44 holds even with the weights swapped between particles", "anchors": ["src/particle_filter.cpp:ParticleFilter::measure", "src/particle_filter.cpp:ParticleFilter::update", "src/particle_filter.cpp:ParticleFilter::init"]}
{"id": "C144", "title": "Every particle gets its own noise of the declared size", "statement": "In a motion update every particle is turned, driven and turned again by the odometry motion plus three noise terms of its own: no random number is used twice, and the standard deviations are those of the noise parameters a1 to a4 for rotation and translation, a drive backwards counting like one forwards. In an initialisation every particle is placed around the given pose with three random numbers of its own and the given standard deviations.", "quantifier": "all particle sets, motions, noise parameters, initial poses and deviations, every stream of standard normal numbers", "why_tests_cant": "swapped deviations or shared draws give a plausible cloud; tests look at averages with loose bounds", "anchors": ["src/particle_filter.cpp:ParticleFilter::init", "src/particle_filter.cpp:ParticleFilter::update", "src/motion_model.cpp:MotionModel::sample"]}
{"id": "C145", "title": "Building a map and matching against it is well defined", "statement": "Building a map from scans taken within M of the origin, with points within M of the robot and cells of at least M / 9000, returns a map; scoring a scan of that kind against it returns a score; matching one returns a result after finitely many steps if the step of the search is positive and not lost in rounding. With the default parameters this holds for everything within 2000 m.", "quantifier": "all finite non-empty lists of scans, all points and poses of the declared size, every eigenvalue solver, in double arithmetic", "why_tests_cant": "undefined conversions and reads outside a vector depend on rounding at the borders of the map; tests use a few scans in the middle of a small map", "anchors": ["src/scan_matcher_ndt.cpp:ScanMatcherNDT::addScans", "src/scan_matcher_ndt.cpp:ScanMatcherNDT::matchScan", "src/scan_matcher_ndt.cpp:ScanMatcherNDT::scorePoints", "src/ndt_model.cpp:NDT::getIndex"]}
{"id": "C146", "title": "A localizing node can be started without a map", "statement": "A node that does not map, or that uses the particle filter, processes its first laser message whether or not it has a map.", "quantifier": "all configurations, states and messages, in double arithmetic", "why_tests_cant": "tests start the parts of the node, never the node; starting without a map is an operator error that should give an error message", "anchors": ["src/ndt_mapper.cpp:Mapper::laserCallback", "src/scan_matcher_ndt.cpp:ScanMatcherNDT::addScans"]}
{"id": "C147", "title": "Measuring and resampling particles is well defined", "statement": "Weighing particles against a map of ordinary size returns a filter. Resampling afterwards returns a filter with a number of particles between the limits: no conversion in the KD-tree or in the KLD bound is undefined, as long as particles stay within 2^28 m, and the limit on particles, the KLD error and the quantile do not ask for more than 2^64 particles (the defaults ask for at most some thousands). Some particle must have a score other than zero.", "quantifier": "all particles and weights, all score functions with values from -2^900 to 0 not all zero, all sequences of draws, all KLD parameters of the declared size, in double arithmetic", "why_tests_cant": "an undefined conversion needs an unlucky combination of particles, bins and KLD parameters; tests resample a few particles with one choice of parameters", "anchors": ["src/particle_filter.cpp:ParticleFilter::measure", "src/particle_filter.cpp:ParticleFilter::resample", "include/ndt_2d/kd_tree.hpp:KDTree::insert"]}
{"id": "C148", "title": "Free space is only claimed where a beam passed", "statement": "Every cell a reading marks as free lies within three cells of the straight way from the laser, where it is mounted on the robot, to the point; so beams that passed elsewhere do not erase a wall another reading showed.", "quantifier": "all scans, mountings of the laser and resolutions", "why_tests_cant": "tests trace rays between cells and never mount the laser away from the origin of the robot", "anchors": ["src/occupancy_grid.cpp:OccupancyGrid::getMsg", "src/ndt_mapper.cpp:Mapper::laserCallback"]}
{"id": "C149", "title": "Readings closer than the sensor can measure are not used", "statement": "A reading below range_min of the message (sensor_msgs/LaserScan: such values should be discarded) does not become a point of the scan.", "quantifier": "all messages and mountings of the laser", "why_tests_cant": "no test converts a laser message", "anchors": ["src/ndt_mapper.cpp:Mapper::laserCallback"]}
{"id": "C150", "title": "The robot is where its newest scan is", "statement": "While mapping, between callbacks, the pose of the robot (from which the transform is published and the next scan is predicted) is the pose of the newest scan of the graph, also after a loop closure or an optimization has moved that scan.", "quantifier": "every history of laser messages, loop closures and optimizations", "why_tests_cant": "tests never run the node; the loop closure thread and the callback interleave", "anchors": ["src/ndt_mapper.cpp:Mapper::loopClosureThread", "src/ndt_mapper.cpp:Mapper::laserCallback", "src/ndt_mapper.cpp:Mapper::mapPublishThread"]}
{"id": "C151", "title": "The documented set-ups for localization leave the map alone", "statement": "With map_file set and use_particle_filter true (README: when set, mapping is disabled) or false, as README describes for localization, and every other parameter at its default, the map stays what the file says as long as no request is made.", "quantifier": "every map file, every sequence of laser messages and initial poses, every schedule of the three threads", "why_tests_cant": "tests never start the node; the loop closure thread changes the map in the background", "anchors": ["README.md:Use Cases", "src/ndt_mapper.cpp:Mapper::configure", "src/ndt_mapper.cpp:Mapper::laserCallback", "src/ndt_mapper.cpp:Mapper::loopClosureThread"]}
{"id": "C152", "title": "The mark switchable has no influence on the optimization", "statement": "The result of optimizing does not depend on which constraints are marked switchable: a loop closure counts like any other constraint, with the square of its error, so a single wrong one moves the map by any amount (half of its error against one odometry constraint of the same weight).", "quantifier": "all constraints, scans, solver states and solvers, every arithmetic; all errors of the wrong closure", "why_tests_cant": "tests optimize consistent graphs; the mark is stored, saved, loaded and shown in colour, so it looks as if it had an effect", "anchors": ["src/ceres_solver.cpp:CeresSolver::optimize", "src/ceres_solver.cpp:CeresSolver::addConstraint", "include/ndt_2d/constraint.hpp:Constraint", "msg/Constraint.msg:switchable"]}
{"id": "C153", "title": "Loop closure candidates are within global_search_size", "statement": "A scan is matched for loop closure only against scans closer than global_search_size (README: the maximum distance between two scans to be considered for global loop closure).", "quantifier": "every reachable state of the node, every positive value of the parameter", "why_tests_cant": "tests query a graph with one radius and never compare the node parameter with a distance", "anchors": ["src/ndt_mapper.cpp:Mapper::loopClosureThread", "src/graph.cpp:Graph::findNearest", "README.md:Parameter Details"]}
{"id": "C154", "title": "Every history of filter calls is well defined", "statement": "A particle filter with 1 to 2^40 particles survives every sequence of init, update, measure and resample in double arithmetic: if the noise of every call is at most N, the scores of a measurement exist, are not positive and not all zero, and the random distribution returns indices of positive weight, then every call finishes, no conversion or distribution is undefined, all particles stay within 2 N per call of the origin and their weights form a distribution. A map none of whose cells holds only coinciding points gives such scores.", "quantifier": "all histories of calls of the filter (any number, any order), all noise, scores and draws within the stated limits, all accurate math libraries, IEEE double arithmetic", "why_tests_cant": "tests make a handful of calls with one seed; whether a weight is NaN or a count does not fit after thousands of calls depends on rounding", "anchors": ["src/particle_filter.cpp:ParticleFilter::init", "src/particle_filter.cpp:ParticleFilter::update", "src/particle_filter.cpp:ParticleFilter::measure", "src/particle_filter.cpp:ParticleFilter::resample", "src/particle_filter.cpp:ParticleFilter::updateStatistics", "src/motion_model.cpp:MotionModel::sample"]}
{"id": "C155", "title": "A node whose numbers are of an ordinary size never fails", "statement": "If poses, points and ranges stay within M of the origin (M at most 9000 cells and 2^26), noise and particles are bounded, laser messages have readings and a sweep time that fits, a node that only localizes has a map when the laser is first seen, neither a map is loaded while running nor the optimizer or the publication of the graph started while a scan is half added, then no step of any thread fails, apart from drawing the occupancy grid (C40, C41): no index outside a container, no null pointer, no undefined conversion or distribution, no search without end, no abort of the optimizer.", "quantifier": "every reachable state and every step of the three threads, every schedule, all accurate math libraries, all eigenvalue, search and optimizer results, IEEE double arithmetic", "why_tests_cant": "tests never start the node; a failure needs a particular interleaving or a particular number", "anchors": ["src/ndt_mapper.cpp:Mapper::laserCallback", "src/ndt_mapper.cpp:Mapper::loopClosureThread", "src/ndt_mapper.cpp:Mapper::mapPublishThread", "src/ndt_mapper.cpp:Mapper::poseCallback", "src/scan_matcher_ndt.cpp:ScanMatcherNDT::matchScan", "src/ndt_model.cpp:NDT::addScan", "src/particle_filter.cpp:ParticleFilter::resample"]}
{"id": "C156", "title": "Drawing the map after scans moved is well defined, and a node with ordinary numbers never fails", "statement": "Drawing an occupancy grid in double arithmetic never fails if the bounds, once updated, have room: cells of a usual side, bounds in order, at most 2^31 cells, and all sensors and points of the scans at most three cells outside the bounds, wherever the optimizer moved them (the five cells of padding absorb the rest and all rounding). The data has as many entries as the grid has cells, and every point and every sensor lies in a cell of it. Together with C155: no step of a node with ordinary numbers fails, if the map has room whenever it is drawn.", "quantifier": "all grids, scans and accurate math libraries; every reachable state and every step of the three threads, every schedule; IEEE double arithmetic", "why_tests_cant": "tests draw one map in which no scan has moved; rounding at the border of a grid depends on the numbers", "anchors": ["src/occupancy_grid.cpp:OccupancyGrid::getMsg", "src/occupancy_grid.cpp:OccupancyGrid::updateBounds", "src/ndt_mapper.cpp:Mapper::mapPublishThread"]}
{"id": "C157", "title": "Loop closures take effect", "statement": "When a pass of the loop closure thread ends and more than optimization_node_limit scans had been added since the last optimisation by the time it began, no loop closure found so far is still waiting for an optimisation.", "quantifier": "every reachable state without loads, every pass from sleep to sleep in which the other threads run arbitrarily; every arithmetic", "why_tests_cant": "whether the flag of an earlier pass survives only shows when a closure is found before enough scans were added and none afterwards", "anchors": ["src/ndt_mapper.cpp:Mapper::loopClosureThread"]}
{"id": "C158", "title": "Matching does not depend on where the map lies or on the order of its scans", "statement": "If every scan of a map and the scan to be matched are moved by the same translation, and the scans of the map are given to addScans in another order, matchScan returns the same score, correction and covariance (or fails in the same way), and scorePoints returns the same score at the moved pose, for scans whose readings lie within range_max of their robot.", "quantifier": "every matcher setting with a positive cell size, every eigenvalue routine, every non-empty list of scans, every permutation and translation, every scan matched; exact real arithmetic", "why_tests_cant": "tests match a few scans around one origin, and the grid of cells is anchored at the outermost robot poses: a different anchoring only shows for maps elsewhere", "anchors": ["src/scan_matcher_ndt.cpp:ScanMatcherNDT::addScans", "src/scan_matcher_ndt.cpp:ScanMatcherNDT::matchScan", "src/scan_matcher_ndt.cpp:ScanMatcherNDT::scorePoints", "src/ndt_model.cpp:NDT::NDT"]}
{"id": "C159", "title": "The occupancy grid does not depend on the order of the scans", "statement": "Two fresh occupancy grids given the same scans in different orders publish the same message: the same origin, size and cell values.", "quantifier": "every list of scans and every permutation of it, every resolution and threshold; exact real arithmetic and binary64", "why_tests_cant": "the number of orders is factorial in the number of scans and the tests draw one scan", "anchors": ["src/occupancy_grid.cpp:OccupancyGrid::getMsg", "src/occupancy_grid.cpp:OccupancyGrid::updateBounds"]}
{"id": "C160", "title": "Headings that differ by whole turns are the same heading", "statement": "Adding whole turns to the headings of scans and poses changes nothing: the same map is built, matching and scoring against it return the same values, the same occupancy grid is drawn, constraints have the same errors, and particles at the same place in the same direction fall into the same bin of the particle filter.", "quantifier": "all scans, poses, matchers, grids, constraints and numbers of turns; every history of filter calls; exact real arithmetic", "why_tests_cant": "headings accumulate over a whole run and pass the seam at half a turn only for particular trajectories; the tests use headings near zero", "anchors": ["src/scan_matcher_ndt.cpp:ScanMatcherNDT::addScans", "src/scan_matcher_ndt.cpp:ScanMatcherNDT::matchScan", "src/occupancy_grid.cpp:OccupancyGrid::getMsg", "include/ndt_2d/ceres_solver_pose.hpp:PoseGraph2dErrorTerm", "src/particle_filter.cpp:ParticleFilter::resample"]}
{"id": "C161", "title": "The map does not depend on where odometry starts", "statement": "Running the node twice with the same settings, schedule, messages and random numbers, the second time with all odometry poses given in another odometry frame (moved and turned by a fixed amount), gives the same scans (points and poses), constraints, robot poses, published grids and markers, saved files and faults. Only the recorded odometry and the published map->odom transform differ, by exactly that amount, so the robot is shown at the same place of the map.", "quantifier": "all settings, schedules of the three threads, messages, map files, matchers and solvers; every change of the odometry frame; exact real arithmetic", "why_tests_cant": "compares two complete executions; odometry starts wherever the base was switched on, and a test runs from one start only", "anchors": ["src/ndt_mapper.cpp:Mapper::laserCallback", "src/ndt_mapper.cpp:Mapper::poseCallback", "src/ndt_mapper.cpp:Mapper::mapPublishThread"]}
{"id": "C162", "title": "Publishing never influences mapping or localization", "statement": "For every execution there is one in which the publisher never runs, and in which the displayed grid has any other resolution and occupancy_threshold, that leaves the same scans, constraints, robot and odometry poses, matchers, filter particles and history of graph changes, matches, optimizations, saves and loads. Watching the map (or showing it at another resolution) therefore changes nothing but the display.", "quantifier": "all settings, messages, map files and schedules of the three threads; every arithmetic", "why_tests_cant": "compares complete executions of three threads; a test sees the timings of one machine", "anchors": ["src/ndt_mapper.cpp:Mapper::mapPublishThread", "src/ndt_mapper.cpp:Mapper::laserCallback", "src/ndt_mapper.cpp:Mapper::loopClosureThread"]}
{"id": "C163", "title": "Until a loop is closed, the result depends on the messages only", "statement": "Two executions with the same settings that handle the same messages in the same order and have no callback in progress leave the same scans, constraints, poses, thresholds and filter, whatever the background threads did meanwhile: (1) while mapping without the particle filter, as long as no loop closure was accepted in either; (2) with mapping off, always. So replaying a recording gives the same result on a slower or busier machine.", "quantifier": "all settings, messages, map files and pairs of schedules of the three threads; every arithmetic; external searches and solvers are functions of their arguments", "why_tests_cant": "compares two executions over all thread timings; a test shows one timing, and a race would rarely show up", "anchors": ["src/ndt_mapper.cpp:Mapper::loopClosureThread", "src/ndt_mapper.cpp:Mapper::laserCallback", "src/ndt_mapper.cpp:Mapper::poseCallback", "src/ndt_mapper.cpp:Mapper::configure"]}
{"id": "C164", "title": "Localization with particles does not depend on where the map lies", "statement": "Take the particle filter in a map frame with another origin: initial pose and the numbers drawn around it moved by t, the same motions and draws, and scores that agree at moved poses (C158 gives this for matching against the same scans in the other frame). Then after every history of init, update, measure and resample calls the particles and the mean are moved by t and the weights, the covariance and the number of particles are equal. For resampling t must be a whole number of half-metre bins and no particle may change sides of an axis of the map: the bins of the KD-tree truncate toward zero, so the bins at the axes are twice as wide, and near the origin the same cloud can keep 4 particles where 1 m further it keeps 2 (refuted without the condition).", "quantifier": "all shifts, filters, histories of calls, scores, draws and settings; exact arithmetic", "why_tests_cant": "compares whole histories of the filter in two frames; a test places its map in one frame and resamples a few clouds", "anchors": ["src/particle_filter.cpp:ParticleFilter::init", "src/particle_filter.cpp:ParticleFilter::update", "src/particle_filter.cpp:ParticleFilter::measure", "src/particle_filter.cpp:ParticleFilter::resample", "src/particle_filter.cpp:ParticleFilter::updateStatistics", "include/ndt_2d/kd_tree.hpp"]}
{"id": "C165", "title": "The scripts do what they are named after, and load_map undoes everything since save_map", "statement": "Run while the node is idle (and the graph is not in use): enable_mapping.py turns mapping on and nothing else; disable_mapping.py turns mapping off and makes the node wait for an initial pose, nothing else; load_map.py replaces the map by the file, makes the node wait for an initial pose and lets the map be redrawn, and keeps mapping on or off; save_map.py writes the map and changes nothing. load_map.py and save_map.py without a file name ask nothing of the node. Whatever the node does after save_map.py, load_map.py of what it wrote brings back the scans and constraints of that moment.", "quantifier": "all settings, idle states, files, executions between save and load, and readers of the file that keep the order within a topic; every arithmetic", "why_tests_cant": "covers every state in which a script may be run and every execution between saving and loading; there is no test of the scripts", "anchors": ["scripts/enable_mapping.py", "scripts/disable_mapping.py", "scripts/load_map.py", "scripts/save_map.py", "srv/Configure.srv", "src/ndt_mapper.cpp:Mapper::configure"]}
{"id": "C166", "title": "What a map says about a place depends only on what was seen there", "statement": "Two maps built with the same settings from any scans, which both cover a place and have seen the same points in the square around it, give the same likelihood there, and the same score to a scan that falls on such places. Adding scans that saw nothing in the square of a place leaves the likelihood of that place as it was - provided no added robot pose is further left or down than all the others; otherwise the corner of the map moves, the squares are cut differently, and a scan without a single point can turn a likelihood into zero.", "quantifier": "all eigen-solvers, settings with positive resolution, lists of scans, places and poses; exact arithmetic; grids with fewer than 2^31 cells", "why_tests_cant": "quantifies over all pairs of maps and all places; a test builds a handful of maps and would have to guess a pose that moves the corner", "anchors": ["src/scan_matcher_ndt.cpp:ScanMatcherNDT::addScans", "src/scan_matcher_ndt.cpp:ScanMatcherNDT::scorePoints", "src/ndt_model.cpp:NDT::addScan", "src/ndt_model.cpp:NDT::likelihood"]}
{"id": "C167", "title": "Messages the node has no use for leave no trace, and a standing robot adds nothing", "statement": "Leaving out messages that are of no use when they arrive (laser messages while not localized, without a transform at the start or end of the sweep, or without enough motion; initial poses while mapping, in another frame, or without odometry; requests without a known bit) gives the same execution, to the last bit and including failures, provided the laser's mounting and range limit are already known when a laser message is dropped. In particular a robot that stands still adds no scan and changes neither its tracked pose nor its filter, however long it stands and whatever the other threads do. A message that is dropped before the laser is known does leave a trace: it can fix the range limit, so that later readings are thrown away.", "quantifier": "all settings, states, messages and interleavings of the three threads; every arithmetic", "why_tests_cant": "quantifies over all histories with messages interspersed; a test compares a few, and the exception needs a dropped first message", "anchors": ["src/ndt_mapper.cpp:Mapper::laserCallback", "src/ndt_mapper.cpp:Mapper::poseCallback", "src/ndt_mapper.cpp:Mapper::configure"]}
{"id": "C168", "title": "The occupancy published for a place depends only on the beams that cross it", "statement": "The value published for a square of the plane (its own fixed square, wherever the published grid happens to begin) is unknown exactly when no beam of any scan marks it and occupied exactly when the share of hits among the marks on that square exceeds the threshold, where the marks of a beam are those of the line drawn between the beam's own squares of the plane. So adding scans, none of whose beams mark a square, leaves that square published with the value it had, however far the added scans make the grid grow; and seeing all the same scans again, any number of times, changes no square.", "quantifier": "all resolutions, thresholds and scan lists whose grids have fewer than 2^31 cells and whose sensors lie in the padded box of their points; exact arithmetic", "why_tests_cant": "quantifies over all scan lists and over where the grid begins; a test compares single grids", "anchors": ["src/occupancy_grid.cpp:OccupancyGrid::getMsg", "src/occupancy_grid.cpp:OccupancyGrid::updateBounds"]}
{"id": "C169", "title": "The filter's estimate lies among its particles", "statement": "After the constructor and any sequence of init, update, measure and resample calls, the position getMean reports is in the convex hull of the particles with positive weight; and if the headings of these particles are all at most d away from some heading, for a d below a quarter turn, then so is the reported heading, also across the seam at pi. (With headings spread over half a circle or more the estimate may look where no particle looks.)", "quantifier": "every history of calls under the conditions of the weights (C44), every random draw; exact arithmetic", "why_tests_cant": "quantifies over all particle sets and weights; a test checks a few clouds", "anchors": ["src/particle_filter.cpp:ParticleFilter::updateStatistics", "src/particle_filter.cpp:ParticleFilter::getMean"]}
{"id": "C170", "title": "Matching never moves a scan further than the search window", "statement": "Whatever the threads do, the pose of a scan object changes only in these ways: a scan that is not in the graph yet is moved by the laser callback, by a correction from the search window of the local or global matcher (or to the filter's estimate, if the filter is used); a loop closure moves a scan by a correction from the search window of the global matcher; the optimizer runs. While mapping, the robot pose stored after a scan therefore differs from the one predicted from odometry by at most linear_search_size in x and y and angular_search_size in heading.", "quantifier": "every reachable state, every step of every thread, every matcher with positive resolutions; exact arithmetic and IEEE doubles", "why_tests_cant": "the bound concerns all interleavings of the threads and all maps; tests match single scans", "anchors": ["src/ndt_mapper.cpp:Mapper::laserCallback", "src/ndt_mapper.cpp:Mapper::loopClosureThread", "src/scan_matcher_ndt.cpp:ScanMatcherNDT::matchScan"]}
{"id": "C171", "title": "Further evidence points the right way", "statement": "When scans are added to a map, a square of the published grid that was free or occupied does not become unknown; beams that end in the square, or do not touch it, never turn it from occupied to free; beams that pass it, or do not touch it, never turn it from free to occupied, and (for a threshold that is not negative) do not make an unknown square occupied.", "quantifier": "all resolutions, thresholds, scan lists and added scans whose grids have fewer than 2^31 cells and whose sensors lie in the padded box of their points; exact arithmetic; for given numbers of hits and passes (together at most 2^53) also IEEE doubles", "why_tests_cant": "monotonicity over all maps and all additions; tests draw a few", "anchors": ["src/occupancy_grid.cpp:OccupancyGrid::getMsg"]}
{"id": "C172", "title": "A measurement depends on the particles and on the ratios of their scores only", "statement": "What a measurement makes of the filter does not depend on the order in which the particles are stored: the same particles get the same weights, and the mean and covariance are the same. It does not depend on the scale of the scores either: multiplying all scores by the same number other than zero gives the same filter.", "quantifier": "all filters with as many weights as particles, all orders of the particles, all score functions and factors; exact arithmetic", "why_tests_cant": "two runs over all orders and all score functions have to be compared", "anchors": ["src/particle_filter.cpp:ParticleFilter::measure", "src/particle_filter.cpp:ParticleFilter::updateStatistics"]}
{"id": "C173", "title": "What the error of a map says", "statement": "The sum of the squared weighted errors that the optimizer minimises is never negative, and zero exactly for the maps that agree with all constraints; two such maps differ, on the scans linked to the first one, by a motion of the whole map only (headings up to whole turns). The error does not change when the whole map is moved, and trusting every constraint k times as much multiplies it by k, so that which of two maps is the better one stays the same.", "quantifier": "all lists of scans and of constraints with positive definite information matrices, all rigid motions, all k > 0; exact arithmetic", "why_tests_cant": "universal statement about all maps and all constraints", "anchors": ["src/ceres_solver.cpp:CeresSolver::optimize", "include/ndt_2d/ceres_solver_pose.hpp:PoseGraph2dErrorTerm"]}
{"id": "C174", "title": "Steps add up: without noise the particles follow the path", "statement": "A particle filter that is updated, without noise, by the steps of a path moves every particle to where the path leads from the particle's first position (headings up to whole turns), however the path is divided into steps. Updating never fails.", "quantifier": "all sequences of steps, all filters with as many weights as particles; exact arithmetic (updating never fails: every arithmetic)", "why_tests_cant": "sequences of any length; tests make one step", "anchors": ["src/particle_filter.cpp:ParticleFilter::update", "src/motion_model.cpp:MotionModel::sample"]}
{"id": "C175", "title": "When no more messages arrive the node comes to rest", "statement": "In every fair execution without faults in which from some moment on no message arrives and no service is called, the node comes to rest: from some later moment on the scans, their poses, the constraints, the robot's poses, the matcher for loop closure and the settings stay as they are, no update waits to be published, and the only thing still published is the same transform, again and again. Loop closure does not find new work in the graph it has gone through.", "quantifier": "all configurations with a rolling depth of at least 0, all fair infinite executions (every schedule) with fewer than 2^64 scans and finitely many messages; every arithmetic", "why_tests_cant": "infinite executions under every schedule of three threads", "anchors": ["src/ndt_mapper.cpp:Mapper::loopClosureThread", "src/ndt_mapper.cpp:Mapper::mapPublishThread"]}
{"id": "C176", "title": "A scan that fits where it lies is left there", "statement": "A scan that scores better where it lies than with every other correction tried is not moved by matching, and a scan matched against the map made of itself alone stays where it is.", "quantifier": "all maps, scans and search windows; exact arithmetic (the default window also in doubles)", "why_tests_cant": "all maps and scans; the best correction depends on every cell", "anchors": ["src/scan_matcher_ndt.cpp:ScanMatcherNDT::matchScan"]}
{"id": "C177", "title": "Until a loop is closed, the map is what its constraints say", "statement": "As long as no loop closure has been accepted and every map loaded was saved by such a node, except while a laser callback is adding a scan, the motion of every constraint leads exactly from its one scan to the other, following constraints from the first scan leads to the pose of every scan, whichever way is taken, and the error of the map is zero (in doubles: every residual is exactly zero for poses and information matrices of ordinary size).", "quantifier": "all executions of the node up to the first accepted loop closure, all sensor data; exact arithmetic, and the residuals in doubles with any libm whose sine and cosine stay within one", "why_tests_cant": "all histories and schedules; a test sees the poses of one short drive", "anchors": ["src/ndt_mapper.cpp:Mapper::laserCallback", "src/ndt_mapper.cpp:Mapper::poseCallback", "src/constraint.cpp:makeConstraint", "src/ceres_solver.cpp:CeresSolver::optimize"]}
{"id": "C178", "title": "A loop closure disturbs only the constraints of the scan it moves", "statement": "Between runs of the optimizer (maps being loaded only while the loop closure thread sleeps, and saved by such a node before its first loop closure), except while a laser callback is adding a scan, the motion of a constraint leads exactly from its one scan to the other unless a loop closure has moved one of the two. The first rolling_depth + 1 scans are never moved, so the constraints between them always fit. In doubles the residuals are exactly zero for poses and information matrices of ordinary size.", "quantifier": "all executions of the node without the optimizer's step, all sensor data; exact arithmetic, and the residuals in doubles with any libm whose sine and cosine stay within one", "why_tests_cant": "all histories and schedules of the threads; a closure between two scans may interleave with callbacks in many ways", "anchors": ["src/ndt_mapper.cpp:Mapper::loopClosureThread", "src/ndt_mapper.cpp:Mapper::laserCallback", "src/ndt_mapper.cpp:Mapper::poseCallback", "src/constraint.cpp:makeConstraint"]}
{"id": "C179", "title": "Default parameters lead to mapping", "statement": "Started without any parameter set (README: default parameters will lead to mapping) the node maps: it needs no initial pose and accepts none, never localizes, and every laser message it uses ends up as one scan of the map, as long as no request is made. With the defaults a scan is left out exactly if the robot moved less than 10 cm and turned less than 1 rad; matching uses at most 100 points, cells of 25 cm and corrections of at most 5 cm along each axis and 0.1 rad (5.01 cm and 0.1001 rad in doubles); the range limit is that of the first laser message; a loop closure is attempted only against scans older than the last 10 whose centres of points are within 45 cm, and with at most 3 of them; the optimizer runs only after closures and after more than 25 new scans; the published map has cells of 5 cm.", "quantifier": "all executions of the node with default parameters, all sensor data; counts and modes in every arithmetic, lengths in exact arithmetic, corrections and beams also in doubles", "why_tests_cant": "unbounded histories, all schedules and all sensor data; a test runs the default parameters on a few recordings only", "anchors": ["src/ndt_mapper.cpp:Mapper::Mapper", "src/scan_matcher_ndt.cpp:ScanMatcherNDT::initialize", "src/ndt_mapper.cpp:Mapper::laserCallback", "README.md"]}
{"id": "C180", "title": "Until a loop is closed the map drifts from odometry by at most the search window per scan", "statement": "While a node that maps (no filter, no map file) closes no loop and gets no request, the pose it assigns to the k-th scan after the first differs from odometry, laid onto the pose of the first scan (the origin), by at most k times the angular search size in heading and, in position, by at most k times sqrt 2 times the linear search size plus k times the angular search size times the length of the way driven by odometry. With the default parameters these are 0.1 rad and 7.1 cm per scan.", "quantifier": "all executions without loop closures and requests, all sensor data, search windows of any size with positive steps, in exact arithmetic", "why_tests_cant": "unbounded histories, all sensor data and schedules; a test compares one recorded drive", "anchors": ["src/ndt_mapper.cpp:Mapper::laserCallback", "src/scan_matcher_ndt.cpp:ScanMatcherNDT::matchScan"]}
{"id": "C181", "title": "A viewer shows the graph published last and nothing else", "statement": "A viewer that gets every message of the graph topic and keeps markers until they are replaced or deleted (as visualization_msgs/Marker prescribes) shows exactly the markers of the graph published last: one node per scan and one edge per constraint, and none left over from an earlier graph.", "quantifier": "all schedules and sensor data, every arithmetic; fewer than 2^31 scans", "why_tests_cant": "what is left on the screen depends on the whole history of published graphs; a test of getMsg sees one message", "anchors": ["src/graph.cpp:Graph::getMsg", "src/ndt_mapper.cpp:Mapper::mapPublishThread", "src/ndt_mapper.cpp:Mapper::configure"]}
{"id": "C182", "title": "An initial pose that is not a number does no harm", "statement": "An initial pose one of whose numbers is not a number (NaN) leaves the node as it was: the robot's pose and the graph do not change, the transform published stays one, and no later step is undefined.", "quantifier": "all states, configurations and initial poses in double arithmetic", "why_tests_cant": "NaN passes or fails every comparison on its way, and what it does depends on the mode of the node and on the comparisons of the search library", "anchors": ["src/ndt_mapper.cpp:Mapper::poseCallback", "src/graph.cpp:Graph::findNearest", "src/ndt_model.cpp:NDT::getIndex"]}
{"id": "C183", "title": "findNearest decides by distance up to rounding, in doubles", "statement": "In double arithmetic, for scans placed within 2^400 of the origin: findNearest returns no scan whose squared distance exceeds dist by more than a factor 1 + 2^-49 (and 2^-599), misses none that is closer by as much, and sorts by distance to the same precision. So an initial pose given while mapping is refused only if it is about sqrt(10) m or more from every scan, and otherwise is connected to the nearest one; and the candidates for a loop closure are the scans below the limit whose squared distance is less than global_search_size to that precision.", "quantifier": "all graphs, queries, distances and limits; all states of a mapping node", "why_tests_cant": "the squared distances are rounded four times and compared; whether the nearest scan wins must hold for all positions", "anchors": ["src/graph.cpp:Graph::findNearest", "include/ndt_2d/graph.hpp:GraphAdapter", "src/ndt_mapper.cpp:Mapper::poseCallback"]}
{"id": "C184", "title": "The particle cloud on display is the filter's", "statement": "Whatever messages arrive, the particle cloud published last is that of the particles the filter has now; nothing was published only as long as the filter has not been used. The cloud published for a laser message belongs to the pose: the pose given to the scan is the mean of these particles.", "quantifier": "all schedules and sensor data, every arithmetic", "why_tests_cant": "the filter changes in two callbacks with separate publications; whether the display can be stale depends on every sequence of messages", "anchors": ["src/ndt_mapper.cpp:Mapper::poseCallback", "src/ndt_mapper.cpp:Mapper::laserCallback", "src/particle_filter.cpp:ParticleFilter::getMsg"]}
{"id": "C185", "title": "Any map file that can be read can be used", "statement": "A node started with a map file that can be read does not leave its memory when it publishes the map, whatever the file contains: constraints that name scans the file does not contain and unusual ids of scans are rejected or ignored.", "quantifier": "all map files with fewer than 2^63 scans, all parameters", "why_tests_cant": "tests load files the program itself has saved; a file from elsewhere is an arbitrary list of messages", "anchors": ["src/graph.cpp:Graph::Graph", "src/graph.cpp:Graph::getMsg", "src/ndt_mapper.cpp:Mapper::Mapper", "src/ndt_mapper.cpp:Mapper::mapPublishThread"]}
{"id": "C186", "title": "A request that fails because of its file changes nothing", "statement": "If the file of a load or save request cannot be read or written, the request has no effect: map, poses, mapping mode, need for an initial pose, and mutexes are as before, so the node (if the executor handles the exception) goes on as if there had been no request.", "quantifier": "every state with an idle executor thread, every action, every schedule", "why_tests_cant": "whether the state is consistent when an exception leaves a callback depends on the order of assignments and on what is locked; tests load files that exist", "anchors": ["src/ndt_mapper.cpp:Mapper::configure", "src/graph.cpp:Graph::Graph", "src/graph.cpp:Graph::save"]}
