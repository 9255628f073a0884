{"id": "C01", "title": "SO3 exponential always yields a rotation", "statement": "Constructing an SO3 from any 3-vector w gives a matrix R with R^T R = I and det R = 1: exactly when |w| >= 1e-5, and with every entry of R^T R - I (and det R - 1) below 1e-30 in magnitude on the small-angle branch.", "quantifier": "every 3-vector w of real numbers", "why_tests_cant": "The domain is a continuum with branch thresholds; tests sample a handful of points and cannot reach every vector on both sides of each threshold.", "anchors": ["src/geometry/SO3.cpp: SO3::exp, SO3::SO3(Mat31)", "src/geometry/mrob/SO3.hpp: SO3"]}
{"id": "C02", "title": "SO3 exponential is the matrix exponential (one-parameter subgroup)", "statement": "For w with all angles outside the small-angle window, s -> exp(s w) is the solution of R'(s) = hat(w) R(s) with R(0)=I, and exp(a w) exp(b w) = exp((a+b) w).", "quantifier": "every direction w and every real parameters a, b, s outside the small-angle branch", "why_tests_cant": "The domain is a continuum with branch thresholds; tests sample a handful of points and cannot reach every vector on both sides of each threshold.", "anchors": ["src/geometry/SO3.cpp: SO3::exp, hat3"]}
{"id": "C03", "title": "SO3: ln(exp(w)) = w up to angle pi", "statement": "For every w with 1e-5 <= |w| <= pi - 6e-8 (and w = 0), SO3(w).ln_vee() = w and the angle reported is |w|. Expected for every axis; the code violates it for axes (1,+-1,0)/sqrt 2 at angles of 90 degrees or more, where it returns 0.", "quantifier": "every 3-vector w in the given range", "why_tests_cant": "The domain is a continuum with branch thresholds; tests sample a handful of points and cannot reach every vector on both sides of each threshold.", "anchors": ["src/geometry/SO3.cpp: SO3::ln, SO3::ln_vee, SO3::exp, vee3"]}
{"id": "C04", "title": "SO3: exp(ln(R)) = R for every rotation", "statement": "For every rotation matrix R whose angle is 0, in [1e-5, pi-6e-8], or pi, exponentiating the logarithm gives R back; below 1e-5 up to 1e-24, and between pi-6e-8 and pi up to 3e-7 per entry. Expected for all rotations; fails when the axis is (1,+-1,0)/sqrt 2 and the angle is at least 90 degrees.", "quantifier": "every rotation matrix in SO(3)", "why_tests_cant": "The domain is a continuum with branch thresholds; tests sample a handful of points and cannot reach every vector on both sides of each threshold.", "anchors": ["src/geometry/SO3.cpp: SO3::ln, SO3::exp"]}
{"id": "C05", "title": "SO3 operations form the rotation group", "statement": "Products and inverses of rotations are rotations; multiplication is associative with the default SO3 as identity; R.inv() is a two-sided inverse; (R1 R2).inv() = R2.inv() R1.inv(); update_lhs/update_rhs multiply by exp(dw) on the stated side.", "quantifier": "all rotation matrices and all sequences of mul/inv/update_lhs/update_rhs operations", "why_tests_cant": "Closure must hold after arbitrarily long operation sequences; tests run only short fixed ones.", "anchors": ["src/geometry/SO3.cpp: operator*, inv, update_lhs, update_rhs, adj"]}
{"id": "C06", "title": "hat/vee are mutually inverse and hat3 is the cross product", "statement": "vee3(hat3 w) = w, hat3(vee3 W) = W for every skew W, hat3(a) b = a x b, and vee6/hat6 likewise for se(3).", "quantifier": "all vectors and all skew-symmetric (resp. se(3)) matrices", "why_tests_cant": "The domain is a continuum with branch thresholds; tests sample a handful of points and cannot reach every vector on both sides of each threshold.", "anchors": ["src/geometry/SO3.cpp: hat3, vee3", "src/geometry/SE3.cpp: hat6, vee6"]}
{"id": "C07", "title": "isSO3 accepts exactly the rotations (up to tolerance)", "statement": "isSO3 returns true on every rotation matrix and false on every improper one. It should also reject every matrix that is not (nearly) orthogonal; the code only looks at the determinant.", "quantifier": "all 3x3 real matrices", "why_tests_cant": "The input space is a 9-dimensional continuum; a random matrix almost never has determinant 1, so random tests miss the false positives.", "anchors": ["src/geometry/SO3.cpp: isSO3"]}
{"id": "C08", "title": "Quaternion conversions", "statement": "quat_to_so3 of every non-zero quaternion is a rotation, is unchanged by scaling the quaternion by any non-zero factor (in particular q and -q agree), and converting a rotation to a quaternion and back gives the same rotation.", "quantifier": "all non-zero quaternions, all rotations", "why_tests_cant": "The domain is a continuum with branch thresholds; tests sample a handful of points and cannot reach every vector on both sides of each threshold.", "anchors": ["src/geometry/SO3.cpp: quat_to_so3, so3_to_quat"]}
{"id": "C09", "title": "Roll-pitch-yaw conversion", "statement": "rpy_to_so3(v) is always a rotation and equals Rx(v0) Ry(v1) Rz(v2); it is 2 pi periodic in each angle.", "quantifier": "all triples of angles", "why_tests_cant": "The domain is a continuum with branch thresholds; tests sample a handful of points and cannot reach every vector on both sides of each threshold.", "anchors": ["src/geometry/SO3.cpp: rpy_to_so3"]}
{"id": "C10", "title": "SO3 distance is a metric-like angle", "statement": "R1.distance(R2) is >= 0, equals 0 for R1 = R2, is symmetric, lies in [0, pi], is invariant under multiplying both on the right by the same rotation, and is zero only if R1 = R2. It exceeds the true relative angle by at most 6e-8 and satisfies the triangle inequality up to 7e-8. Zero only for R1 = R2 and the triangle inequality fail in the code when a relative rotation is about (1,+-1,0)/sqrt 2 by 90 degrees or more.", "quantifier": "all pairs/triples of rotations", "why_tests_cant": "The domain is a continuum with branch thresholds; tests sample a handful of points and cannot reach every vector on both sides of each threshold.", "anchors": ["src/geometry/SO3.cpp: SO3::distance, SO3::ln"]}
{"id": "C11", "title": "SE3 operations form the rigid-motion group", "statement": "Products and inverses of rigid transforms are rigid transforms; multiplication is associative; identity and two-sided inverse hold; update_lhs/update_rhs by any increment with rotation part of at least 1e-5 (or zero) keeps the pose a rigid transform.", "quantifier": "all rigid transforms, all finite sequences of update/mul/inv operations", "why_tests_cant": "Arbitrarily long sequences; tests use one or two operations.", "anchors": ["src/geometry/SE3.cpp: operator*, mul, inv, update_lhs, update_rhs"]}
{"id": "C12", "title": "SE3 transform is a rigid group action", "statement": "T.transform(p) preserves distances between points, (T1*T2).transform(p) = T1.transform(T2.transform(p)), T.inv().transform undoes T.transform, and transform_array transforms each row exactly as transform does, for any number of rows.", "quantifier": "all rigid transforms, all points, arrays of every length", "why_tests_cant": "Universally quantified over poses, points and array sizes.", "anchors": ["src/geometry/SE3.cpp: transform, transform_array, inv"]}
{"id": "C13", "title": "SE3 exponential", "statement": "SE3(xi) is a rigid transform (rotation exact for |w| >= 1e-5 or w = 0) with last row (0,0,0,1), and for |w| > 1e-3 it is the matrix exponential of hat6(xi): s -> exp(s xi) solves T'(s) = hat6(xi) T(s), T(0) = I.", "quantifier": "every 6-vector xi", "why_tests_cant": "The domain is a continuum with branch thresholds; tests sample a handful of points and cannot reach every vector on both sides of each threshold.", "anchors": ["src/geometry/SE3.cpp: SE3::exp, hat6"]}
{"id": "C14", "title": "SE3: ln and exp are mutually inverse", "statement": "ln_vee(exp(xi)) = xi for rotation angle in (5e-3, pi - 6e-8] and exp(ln(T)) = T for every rigid T in that range, including a zero rotation and a half turn; below 5e-3 up to 1e-13 of the translation and 1e-24 of the rotation; between pi-6e-8 and pi up to 1e-6 of the translation; fails only where SO3::ln does.", "quantifier": "every xi / every rigid transform in range", "why_tests_cant": "The domain is a continuum with branch thresholds; tests sample a handful of points and cannot reach every vector on both sides of each threshold.", "anchors": ["src/geometry/SE3.cpp: SE3::exp, SE3::ln, SE3::ln_vee"]}
{"id": "C15", "title": "SE3 adjoint", "statement": "Adj(T1 T2) = Adj(T1) Adj(T2), Adj(T.inv()) Adj(T) = I, hat6(Adj(T) xi) = T hat6(xi) T^-1, and T.update_rhs(xi) = T.update_lhs(Adj(T) xi): exactly when the rotation part of xi is zero or larger than 1e-3, and for every other xi with the same rotation and a translation within 1e-17 |t|.", "quantifier": "all rigid transforms T, all xi (every branch of exp)", "why_tests_cant": "A test checks one T and one xi.", "anchors": ["src/geometry/SE3.cpp: adj, update_lhs, update_rhs"]}
{"id": "C16", "title": "isSE3 accepts exactly the rigid transforms", "statement": "isSE3 accepts every rigid transform; it should reject every matrix whose last row differs from (0,0,0,1) or whose 3x3 block is not a rotation. The code accepts matrices with wrong last rows (e.g. (-5,0,0,1)) and non-orthogonal blocks.", "quantifier": "all 4x4 real matrices", "why_tests_cant": "Random matrices are almost never near the accepted set, so tests miss false positives.", "anchors": ["src/geometry/SE3.cpp: isSE3", "src/geometry/SO3.cpp: isSO3"]}
{"id": "C17", "title": "regenerate keeps the pose", "statement": "Calling regenerate on a rigid transform leaves it unchanged (within the exact range of ln/exp). The code replaces the rotation by the identity when the axis is (1,+-1,0)/sqrt 2 and the angle is at least 90 degrees.", "quantifier": "every rigid transform", "why_tests_cant": "The domain is a continuum with branch thresholds; tests sample a handful of points and cannot reach every vector on both sides of each threshold.", "anchors": ["src/geometry/SE3.cpp: SE3::regenerate", "src/FGraph/factors/nodePose3d.cpp: NodePose3d::update"]}
{"id": "C18", "title": "SE3 distances", "statement": "distance, distance_rotation and distance_trans are >= 0, vanish for equal poses and are symmetric (distance: when the relative rotation angle is not in the open window (pi - 6e-8, pi)); distance_trans satisfies the triangle inequality, and distance_rotation does up to 7e-8 unless one of the two steps is a rotation about (1,+-1,0) by 90 degrees or more; distance and distance_rotation are invariant under right composition. distance = 0 should imply equal poses; the code violates this for relative rotations about (1,+-1,0).", "quantifier": "all pairs/triples of rigid transforms", "why_tests_cant": "The domain is a continuum with branch thresholds; tests sample a handful of points and cannot reach every vector on both sides of each threshold.", "anchors": ["src/geometry/SE3.cpp: distance, distance_rotation, distance_trans"]}
{"id": "C19", "title": "curly_wedge is the Lie bracket", "statement": "hat6(curly_wedge(x) y) = hat6(x) hat6(y) - hat6(y) hat6(x); hence it is antisymmetric and satisfies the Jacobi identity.", "quantifier": "all pairs/triples of 6-vectors", "why_tests_cant": "The domain is a continuum with branch thresholds; tests sample a handful of points and cannot reach every vector on both sides of each threshold.", "anchors": ["src/geometry/SE3cov.cpp: curly_wedge"]}
{"id": "C20", "title": "Second-order covariance compounding preserves covariances", "statement": "compound_2nd_order composes the poses, keeps the covariance symmetric positive semidefinite, and is associative: compounding a chain of uncertain increments gives the same pose and covariance however it is grouped.", "quantifier": "all poses, all symmetric PSD covariances, chains of every length", "why_tests_cant": "Covariances after arbitrarily many compositions.", "anchors": ["src/geometry/SE3cov.cpp: compound_2nd_order, mul, operator*"]}
{"id": "C21", "title": "Fourth-order covariance compounding equals the fourth-order moments", "statement": "The closed block formulas used by compound_4th_order (A1, A2, B) equal the defining moments sum_ij S_ij ad(e_i) ad(e_j) and sum_ij S1_ij ad(e_i) S2 ad(e_j)^T for every symmetric pair of covariances, the result is symmetric, and it reduces to the second-order result when either pose is certain. The code violates the B moment: B_rho_phi uses the bottom-left block of the first covariance where the moment has the top-right one, so the value is right only when that cross block is symmetric; and the result need not be positive semidefinite.", "quantifier": "all symmetric 6x6 covariances, all poses", "why_tests_cant": "The identity is polynomial in 42 variables; tests compare a few hard-coded matrices.", "anchors": ["src/geometry/SE3cov.cpp: compound_4th_order, brackets"]}
{"id": "C22", "title": "wrap_angle normalises any angle", "statement": "wrap_angle terminates for every real angle, returns a value in [-pi, pi), congruent to the input modulo 2 pi, is the identity on that interval and is the only such value.", "quantifier": "every real angle", "why_tests_cant": "Number of loop iterations is unbounded; tests use small angles.", "anchors": ["src/FGraph/node.cpp: wrap_angle"]}
{"id": "C23", "title": "wrap_angle terminates on every double", "statement": "With IEEE double rounding wrap_angle terminates exactly on NaN and on the finite doubles of magnitude at most 2^56 and then returns a double in [-M_PI, M_PI) (unchanged if the argument was there already); on infinities and on every larger finite double it loops forever.", "quantifier": "every binary64 value", "why_tests_cant": "A hanging call cannot be observed by a finite test; the domain has 2^64 points.", "anchors": ["src/FGraph/node.cpp: wrap_angle"]}
{"id": "C24", "title": "Node updates preserve node invariants", "statement": "After any sequence of update/update_from_auxiliary/set_state operations a 2D pose has its angle in [-pi, pi) and a plane node that was only built and updated has a unit normal (when the updated normal is non-zero); 3D poses remain rigid; auxiliary copies are not changed by update.", "quantifier": "every sequence of node operations with every argument", "why_tests_cant": "Sequences of arbitrary length.", "anchors": ["src/FGraph/factors/nodePose2d.cpp", "src/FGraph/factors/nodePose3d.cpp", "src/FGraph/factors/nodePlane4d.cpp", "src/FGraph/factors/nodeLandmark2d.cpp", "src/FGraph/factors/nodeLandmark3d.cpp"]}
{"id": "C25", "title": "Bookkeeping and restoring a node state is lossless", "statement": "Copying a state to the auxiliary and back restores exactly the same state for every node type (for a 2D pose: when its angle is in [-pi,pi); otherwise equal modulo 2 pi).", "quantifier": "every node type and state", "why_tests_cant": "Continuum of states.", "anchors": ["src/FGraph/factor_graph_solve.cpp: synchronize_nodes_auxiliary_state, synchronize_nodes_state", "src/FGraph/factors/nodePose2d.cpp: set_state, set_auxiliary_state"]}
{"id": "C26", "title": "Robust weights", "statement": "For every normalised residual u >= 0 the robust weight is 1 for the quadratic cost; in (0,1] and non-increasing in u for Huber, Cauchy and McClure; Huber is continuous at the threshold. RANSAC, which the API offers, always gives weight 0, so it removes every factor.", "quantifier": "every u >= 0 and every robust type", "why_tests_cant": "Continuum; the RANSAC constant-zero behaviour needs all inputs.", "anchors": ["src/FGraph/factor.cpp: evaluate_robust_weight"]}
{"id": "C27", "title": "Node and factor identifiers are dense positions", "statement": "After any sequence of additions of fresh nodes and factors, the k-th node (factor) added has id k and get_node(k)/get_factor(k) returns it; number_nodes/number_factors equal the number of additions.", "quantifier": "all finite sequences of add_node/add_factor calls", "why_tests_cant": "Histories of every length.", "anchors": ["src/FGraph/factor_graph.cpp: add_node, add_factor, get_node, get_factor"]}
{"id": "C28", "title": "State and observation dimensions", "statement": "After any sequence of additions, get_dimension_state is the sum of the dimensions of the standard (non-anchor) nodes and get_dimension_obs is the sum of the factor dimensions.", "quantifier": "all finite sequences of add_node/add_factor calls", "why_tests_cant": "Histories of every length.", "anchors": ["src/FGraph/factor_graph.cpp: add_node, add_factor"]}
{"id": "C29", "title": "Factor/node adjacency is consistent", "statement": "After any sequence of additions, a factor lists a node as neighbour exactly when the node lists the factor, with equal multiplicity; remove followed by absence.", "quantifier": "all finite sequences of add operations", "why_tests_cant": "Histories of every length.", "anchors": ["src/FGraph/factor_graph.cpp: add_factor", "src/FGraph/node.cpp: add_factor, rm_factor"]}
{"id": "C30", "title": "Adding a node twice does not duplicate it", "statement": "The header promises that add_node/add_factor only add when the element is not already in the graph. The code always appends, and re-adding a node changes its id.", "quantifier": "all graphs and nodes", "why_tests_cant": "Universally quantified over graphs.", "anchors": ["src/FGraph/mrob/factor_graph.hpp: add_node, add_factor", "src/FGraph/factor_graph.cpp: add_node"]}
{"id": "C31", "title": "Removing a factor from a node", "statement": "rm_factor removes one occurrence of a listed factor and leaves the rest in order; for a factor that is not listed the call has undefined behaviour (erase(end())).", "quantifier": "all neighbour lists and factors", "why_tests_cant": "All lists, and UB cannot be observed by a test.", "anchors": ["src/FGraph/node.cpp: Node::rm_factor"]}
{"id": "C32", "title": "The sparse Jacobian has every block in its place", "statement": "For every well-formed graph, build_adjacency writes entry (l,k) of the Jacobian of factor f w.r.t. standard node n at row rowoffset(f)+l and column coloffset(n)+k, nothing else, never twice, never out of range; anchored nodes contribute no columns.", "quantifier": "all well-formed graphs of every size, mixing node and factor dimensions and anchors", "why_tests_cant": "Index arithmetic over graphs of every size.", "anchors": ["src/FGraph/factor_graph_solve.cpp: build_adjacency"]}
{"id": "C33", "title": "Normal equations are the sum over factors", "statement": "The information matrix and vector built from the sparse Jacobian satisfy x^T L y = sum_f w_f (J_f x)^T W_f (J_f y) and b^T x = sum_f w_f r_f^T W_f J_f x for every x, y; L is symmetric, and positive semidefinite when the information matrices are.", "quantifier": "all well-formed graphs, all vectors", "why_tests_cant": "Graphs of every size.", "anchors": ["src/FGraph/factor_graph_solve.cpp: build_adjacency, build_info_adjacency"]}
{"id": "C34", "title": "A Gauss-Newton step minimises the linearised cost", "statement": "If the linear solver returns an exact solution of L dx = b, then the increment -dx applied to the nodes minimises sum_f w_f |r_f + J_f y|^2_{W_f} over all increments y.", "quantifier": "all well-formed graphs with PSD information matrices", "why_tests_cant": "Minimality is a claim over all increments.", "anchors": ["src/FGraph/factor_graph_solve.cpp: optimize_gauss_newton, update_nodes"]}
{"id": "C35", "title": "Anchored nodes never move", "statement": "solve (GN or LM, any number of iterations, any solver outcome) never changes the state of an anchored node, and update_nodes changes only the standard nodes.", "quantifier": "all graphs, all linear solver results, all iteration counts", "why_tests_cant": "All histories and all numerical outcomes.", "anchors": ["src/FGraph/factor_graph_solve.cpp: update_nodes, solve"]}
{"id": "C36", "title": "Levenberg-Marquardt never increases chi2", "statement": "After solve(LM) the re-evaluated chi2 of the graph is at most the chi2 before the call, whatever the linear solver returns and however many iterations are allowed.", "quantifier": "all graphs, all solver outcomes, all iteration limits", "why_tests_cant": "All iteration histories, including rejected steps.", "anchors": ["src/FGraph/factor_graph_solve.cpp: optimize_levenberg_marquardt"]}
{"id": "C37", "title": "Levenberg-Marquardt terminates within the iteration limit", "statement": "LM performs at least one and at most max(1, maxIters) iterations; it reports the iteration at which the improvement fell below the tolerance and 0 if that never happened.", "quantifier": "all iteration limits and all cost sequences", "why_tests_cant": "All cost sequences.", "anchors": ["src/FGraph/factor_graph_solve.cpp: optimize_levenberg_marquardt"]}
{"id": "C38", "title": "The lambda argument of solve matters", "statement": "solve(method, maxIters, lambda, tol) should use the damping the caller passes. In the code neither GN nor LM depends on it: LM restarts from 1e-5 and GN never adds it.", "quantifier": "all graphs and all pairs of lambda values", "why_tests_cant": "Universally quantified equality of behaviours.", "anchors": ["src/FGraph/factor_graph_solve.cpp: solve, optimize_levenberg_marquardt"]}
{"id": "C39", "title": "chi2 is the weighted sum of squares", "statement": "chi2 is the sum over factors of half the squared Mahalanobis residual, non-negative when the information matrices are PSD, and chi2(false) returns the value at the last evaluation while get_chi2_array sums to it.", "quantifier": "all graphs", "why_tests_cant": "Graphs of every size.", "anchors": ["src/FGraph/factor_graph_solve.cpp: chi2, get_chi2_array", "src/FGraph/factors: evaluate_chi2"]}
{"id": "C40", "title": "2D pose-pose factor: residual and Jacobian", "statement": "The residual of Factor2Poses2d is zero exactly when the target equals the origin composed with the observation (modulo 2 pi), and its Jacobian is the derivative of the residual with respect to both poses (away from the wrap).", "quantifier": "all pose pairs and observations", "why_tests_cant": "Continuum of states.", "anchors": ["src/FGraph/factors/factor2Poses2d.cpp: evaluate_residuals, evaluate_jacobians"]}
{"id": "C41", "title": "Odometry factor Jacobian", "statement": "The Jacobian of Factor2Poses2dOdom should be the derivative of its residual. It is exactly when the observation drives no distance or its first rotation is zero modulo 2 pi (away from the wrap of the heading residual), and wrong otherwise, also where the residual vanishes. The residual itself vanishes exactly when the target is reached by turning obs(0), driving obs(1) and turning obs(2).", "quantifier": "all pose pairs and odometry observations", "why_tests_cant": "Continuum; needs a derivative.", "anchors": ["src/FGraph/factors/factor2Poses2d.cpp: Factor2Poses2dOdom::evaluate_jacobians"]}
{"id": "C42", "title": "Factor meaning does not depend on node numbering (2D)", "statement": "A relative pose observation from a to b should be satisfied by b = a*obs whether a or b has the smaller id. In the code the reversed case uses -obs, which is satisfied by b = a*obs exactly when the observation has no translation or no rotation (for odometry: no distance or equal rotations).", "quantifier": "all pose pairs and observations, both id orders", "why_tests_cant": "Continuum and both orders.", "anchors": ["src/FGraph/factors/factor2Poses2d.cpp: Factor2Poses2d ctor"]}
{"id": "C43", "title": "Factor meaning does not depend on node numbering (3D)", "statement": "A relative 3D observation from a to b should give zero residual at b consistent with a*obs whichever id is smaller. In the reversed case the code computes the inverse and discards it, so the reversed factor is satisfied only by involutive observations (among translations: only the zero one).", "quantifier": "all rigid poses and observations, both id orders", "why_tests_cant": "Continuum and both orders.", "anchors": ["src/FGraph/factors/factor2Poses3d.cpp: Factor2Poses3d ctor"]}
{"id": "C44", "title": "updateNodeTarget initialises the target consistently", "statement": "Adding a two-pose factor with updateNodeTarget puts the target where the residual vanishes: true for 3D and for the 2D odometry factor (ids in order); false for Factor2Poses2d unless the origin heading is zero modulo 2 pi or the observation has no translation, and false for 3D poses with reversed ids.", "quantifier": "all origins, observations and previous targets", "why_tests_cant": "Continuum.", "anchors": ["src/FGraph/factors/factor2Poses2d.cpp", "src/FGraph/factors/factor2Poses3d.cpp"]}
{"id": "C45", "title": "2D landmark factor", "statement": "The residual is zero iff range and bearing agree with the observation; the Jacobian is the derivative of the residual away from the singularity; initializeLandmark yields zero residual for non-negative ranges; none of this depends on which of pose and landmark has the smaller id. Within one millimetre of the landmark the residual is zero whatever was observed.", "quantifier": "all poses, landmarks, observations", "why_tests_cant": "Continuum.", "anchors": ["src/FGraph/factors/factor1Pose1Landmark2d.cpp"]}
{"id": "C46", "title": "3D landmark factor", "statement": "The residual is R^T(l - t) - z, zero iff the pose maps z to l; the Jacobian is the derivative under the left pose update and additive landmark update; independent of id order. initializeLandmark should give zero residual, but the 3D factor ignores the flag.", "quantifier": "all rigid poses, landmarks, observations", "why_tests_cant": "Continuum.", "anchors": ["src/FGraph/factors/factor1Pose1Landmark3d.cpp"]}
{"id": "C47", "title": "Plane factor", "statement": "The residual vanishes iff the transformed plane equals the observation (or its opposite when the local offset is negative); then the points on the observed plane are exactly those whose image is on the landmark plane; the Jacobian is the derivative for the pose and for the additive plane parameters, but not along the normalised update the node performs.", "quantifier": "all rigid poses, planes, observations", "why_tests_cant": "Continuum.", "anchors": ["src/FGraph/factors/factor1Pose1Plane4d.cpp"]}
{"id": "C48", "title": "3D pose factors", "statement": "The residual of a 3D prior/relative pose is zero iff the poses are consistent or differ by a half turn about the axes (1,1,0) or (1,-1,0), where ln fails; the Jacobians used (I and -Adj) are the derivative of the residual at zero residual and, for equal rotations, only there.", "quantifier": "all rigid poses and observations", "why_tests_cant": "Continuum.", "anchors": ["src/FGraph/factors/factor1Pose3d.cpp", "src/FGraph/factors/factor2Poses3d.cpp"]}
{"id": "C49", "title": "2D pose prior", "statement": "Residual zero iff the pose equals the observation modulo 2 pi in the angle; Jacobian identity is its derivative.", "quantifier": "all poses and observations", "why_tests_cant": "Continuum.", "anchors": ["src/FGraph/factors/factor1Pose2d.cpp"]}
{"id": "C50", "title": "Point-to-plane factor", "statement": "Residual is the signed distance of the transformed point to the plane; its modulus is the smallest distance from the point to the plane, and the Jacobian is its derivative under the left update.", "quantifier": "all poses, points, planes", "why_tests_cant": "Continuum.", "anchors": ["src/PCRegistration/factors/factor1PosePoint2Plane.cpp"]}
{"id": "C51", "title": "Dense solver gradient", "statement": "The dense solver should use the gradient sum_f J_f^T W_f r_f. The code adds each factor contribution once per connected node, so the gradient of a k-node factor is multiplied by k; the Hessian is the correct sum.", "quantifier": "all graphs", "why_tests_cant": "Graphs of every size and arity.", "anchors": ["src/FGraph/factor_graph_solve_dense.cpp: calculate_gradient_hessian"]}
{"id": "C52", "title": "Dense solver with anchors", "statement": "The dense solver stays in bounds for graphs without anchors; with an anchored node its block offsets exceed the state dimension and it writes out of range.", "quantifier": "all graphs", "why_tests_cant": "Graphs of every size; UB is not observable.", "anchors": ["src/FGraph/factor_graph_solve_dense.cpp: calculate_gradient_hessian, update_state"]}
{"id": "C53", "title": "Optimizer Levenberg-Marquardt never ends worse than it started", "statement": "For every problem whose bookkeep/restore is exact and whose errors are numbers, optimize_levenberg_marquardt ends with an error at most the initial one; if the error evaluates to NaN the step is kept.", "quantifier": "all problems (error functions, updates, restore), all iteration limits, all numerical outcomes", "why_tests_cant": "All histories of an arbitrary problem.", "anchors": ["src/common/optimizer.cpp: optimize_levenberg_marquardt"]}
{"id": "C54", "title": "Optimizer iteration bounds", "statement": "Newton-Raphson and LM perform at least one and at most max(1, max_iters) iterations, and NR stops early only when the last change in error is within the tolerance.", "quantifier": "all problems and limits", "why_tests_cant": "All cost sequences.", "anchors": ["src/common/optimizer.cpp: optimize_newton_raphson, optimize_levenberg_marquardt"]}
{"id": "C55", "title": "Arun returns the least-squares rigid transform", "statement": "When arun returns 1 (given an exact SVD) T is a rigid transform that minimises sum |y_i - T x_i|^2 over all rigid transforms; when it returns 0 T is unchanged.", "quantifier": "all point sets of every size, all exact SVDs", "why_tests_cant": "Optimality over SO(3) x R^3 for every point set.", "anchors": ["src/PCRegistration/arun.cpp: PCRegistration::arun"]}
{"id": "C56", "title": "Arun rejects only degenerate inputs", "statement": "Return 0 should mean the points do not determine the transform: collinear clouds and fewer than three points are rejected. The code also returns 0 for well-conditioned symmetric sets (equal singular values) and for small-scale clouds, and the Python call then returns the identity silently.", "quantifier": "all point sets", "why_tests_cant": "Needs a witness outside of generic random data.", "anchors": ["src/PCRegistration/arun.cpp: PCRegistration::arun"]}
{"id": "C57", "title": "GICP and weighted point registration", "statement": "Both run between 1 and 20 iterations, keep T rigid, leave a perfectly aligned T unchanged, and every iteration is the Gauss-Newton step of the weighted squared error under a left update (a descent direction). For gicp the weights depend on T and a fixed point need not minimise the error.", "quantifier": "all point sets, weights/covariances and initial poses, all linear solver outcomes", "why_tests_cant": "All iteration histories.", "anchors": ["src/PCRegistration/gicp.cpp", "src/PCRegistration/weight_point.cpp"]}
{"id": "C58", "title": "Plane estimation", "statement": "estimate_plane returns a plane with unit normal through the centroid that minimises the sum of squared distances among all planes (given an exact eigen solver); estimate_normal returns the same normal; estimate_centroid is the mean and commutes with rigid motions.", "quantifier": "all point arrays of every size", "why_tests_cant": "Optimality over all planes.", "anchors": ["src/PCRegistration/estimate_plane.cpp"]}
{"id": "C59", "title": "Plane point accounting", "statement": "After any program on a Plane without clear_points, get_points / get_number_points at each time t < timeLength are exactly the points pushed at t, in order; pushes at later times are ignored; get_total_number_points is the sum of the counts; get_mean_point after calculate_all_matrices_S(true) is the mean of the points pushed at t. get_mean_point does not see points pushed after the matrices were computed, and after clear_points the next push or evaluation is out of range.", "quantifier": "all finite sequences of calls on a plane", "why_tests_cant": "Sequences of every length.", "anchors": ["src/PCRegistration/plane.cpp: push_back_point, get_points, clear_points, calculate_all_matrices_S, get_mean_point", "src/PCRegistration/mrob/plane.hpp: get_number_points, get_total_number_points"]}
{"id": "C60", "title": "Plane error is the least squares value over the points in use", "statement": "estimate_plane returns the minimum over planes (n,d) of unit length as 4-vectors of the sum of (n.(T_t p)+d)^2 over all points p in use, and get_plane attains it; the value is at most the sum of squared distances to any plane and is zero exactly when the moved points are coplanar. All points pushed so far are in use if nothing was evaluated before, after reset and after calculate_all_matrices_S(true); points pushed after an evaluation are silently left out of later evaluations. The value is not invariant to a rigid motion of the world frame.", "quantifier": "all push/evaluate sequences, all trajectories, every exact eigen solver", "why_tests_cant": "Sequences of every length; minimality over a continuum.", "anchors": ["src/PCRegistration/plane.cpp: estimate_plane, calculate_all_matrices_S, calculate_all_matrices_Q"]}
{"id": "C61", "title": "Plane gradient and Hessian are derivatives of the error", "statement": "After an evaluation, calculate_gradient(t) is the derivative, in every direction of the left update of pose t, of the error of the estimated plane, and (if the smallest eigenvalue is simple) of the value estimate_plane returns when the plane is estimated again. calculate_hessian is the exact second derivative for translations; for rotations its diagonal is off by 2 v^T G G Q v.", "quantifier": "all call sequences, trajectories, times and directions", "why_tests_cant": "Continuum of poses and directions.", "anchors": ["src/PCRegistration/plane.cpp: calculate_gradient, calculate_hessian"]}
{"id": "C62", "title": "Synthetic plane scans are consistent with their ground truth", "statement": "CreatePoints(p, n, N): for p < 2^23 points and n <= 2^24 planes, every point gets a plane index in range (computed in 32-bit floats), indices are nondecreasing within a scan, each scan has p points, and plane k holds exactly the points with id k; for p*n <= 2^24 the index is the integer quotient i*n/p and every plane gets floor(p/n) or one more points per scan. For larger p the index can equal n and the constructor reads out of range. The ground truth starts at the identity, ends at the drawn final pose when exp(ln) returns it, and moves each point to its plane at the drawn height. A PlaneRegistration filled from a noise-free scene and set to the final pose has the ground truth trajectory and error zero.", "quantifier": "all draws of the random engines, all sizes below the bound, all earlier uses of the registration", "why_tests_cant": "Rounding only fails beyond 8 million points; continuum of draws.", "anchors": ["src/PCRegistration/create_points.cpp: CreatePoints::CreatePoints, create_plane_registration", "src/PCRegistration/mrob/create_points.hpp"]}
{"id": "C63", "title": "Profiling totals", "statement": "total_time() is the sum, over the calls of stop() since the last reset(), of the whole microseconds since the start() or reset() before each; each stop loses less than a microsecond. With a monotone clock and a start before each stop the total never exceeds the time elapsed since the reset; two stops in a row count the same time twice; a stop without a start counts from the clock epoch. The percentages printed add up to 100 unless the total is zero (then they are NaN).", "quantifier": "all sequences of start/stop/reset, all clock readings", "why_tests_cant": "Sequences of every length, real clocks.", "anchors": ["src/common/time_profiling.cpp", "src/common/mrob/time_profiling.hpp"]}
{"id": "C64", "title": "Destroying a graph leaves no reference cycle", "statement": "Nodes and factors hold shared pointers to each other. After the destructor of the graph no node/factor cycle remains if every neighbour of every added factor was itself added to the graph; otherwise the cycle remains and the objects leak.", "quantifier": "all finite sequences of API calls (without rm_factor)", "why_tests_cant": "Ownership cycles are invisible to functional tests; histories of every length.", "anchors": ["src/FGraph/factor_graph.cpp: ~FGraph, add_factor"]}
{"id": "C65", "title": "Sessions that follow the documented rules never reach undefined behaviour", "statement": "A program that creates nodes, adds them, adds factors between distinct added nodes, solves and asks for chi2 in any order (directly or through FGraphPy with ids returned earlier) never performs an out-of-range access or a duplicate sparse insertion. Passing the same id twice to a binary factor is accepted and does.", "quantifier": "all finite sequences of calls, all linear solver outcomes", "why_tests_cant": "Interleavings of every length.", "anchors": ["mrobpy/FGraphPy.cpp: FGraphPy", "src/FGraph/factor_graph_solve.cpp: FGraphSolve::build_adjacency"]}
{"id": "C66", "title": "Python sessions with matching node kinds", "statement": "Every program of Python calls (add nodes, add factors between nodes of the right kinds, solve, chi2, in any order) runs without undefined behaviour, keeps the graph well-formed, keeps node kinds, and chi2 equals the sum of the half squared Mahalanobis residuals of the factor calls made so far at the current states; a further LM solve never increases that sum.", "quantifier": "all finite programs of Python calls, all linear solver outcomes", "why_tests_cant": "Programs of every length; undefined behaviour is not observable.", "anchors": ["mrobpy/FGraphPy.cpp", "src/FGraph/factor_graph.cpp", "src/FGraph/factor_graph_solve.cpp", "src/FGraph/factors"]}
{"id": "C67", "title": "Incremental plane errors agree with full evaluations", "statement": "After a full evaluation, calls of estimate_plane_incrementally at pairwise distinct times, each following a change of the trajectory at that time only, and a final get_error_incremental at another time return the same minimum as a full evaluation would. Calling it again at a time already used gives a wrong (even negative) error, because the stored Q_t is not replaced; get_error is not updated.", "quantifier": "all planes, trajectories and finite sequences of increments", "why_tests_cant": "Sequences of every length.", "anchors": ["src/PCRegistration/plane.cpp: estimate_plane_incrementally, get_error_incremental"]}
{"id": "C68", "title": "Plane registration accounting and error", "statement": "After any program on a PlaneRegistration (set the numbers, add planes, push points, evaluate, solve, reset, in any order): the planes have distinct ids in the order of addition, plane_push_back_point throws exactly for unknown ids, calculate_total_number_points is the number of accepted points, get_point_cloud(t) returns the points pushed at t, get_current_error is defined exactly when every plane fits the trajectory, equals the sum over planes of the least squares error of the points in use, and evaluating it twice gives the same value and moves nothing. Programs that respect the documented preconditions never throw.", "quantifier": "all finite programs, all outcomes of the external eigen, inverse and SVD routines", "why_tests_cant": "Programs of every length.", "anchors": ["src/PCRegistration/plane_registration.cpp: add_plane, add_new_plane, plane_push_back_point, calculate_total_number_points, get_point_cloud, get_current_error", "src/PCRegistration/mrob/plane_registration.hpp"]}
{"id": "C69", "title": "Plane registration trajectories", "statement": "After set_number_planes_and_poses(p, n) with n >= 1 and any further calls the trajectory has n affine poses, the first one the identity if n >= 2, and get_trajectory never throws. set_last_pose(T) sets pose t to exp(t/(n-1) ln T), so the last pose is T where exp(ln T) = T; with one pose it does nothing. Programs without INITIALIZE and GRADIENT_ALL_POSES keep all poses on the constant-velocity path to the last one. reset_solution makes every pose the identity and keeps the planes.", "quantifier": "all finite programs, all poses", "why_tests_cant": "Programs of every length, continuum of poses.", "anchors": ["src/PCRegistration/plane_registration.cpp: set_number_planes_and_poses, reset_solution, set_last_pose, get_trajectory, update_state, update_state_from_bookkeep"]}
{"id": "C70", "title": "Plane registration by Levenberg-Marquardt does not increase the error", "statement": "From a trajectory on a constant-velocity path, solve(LM_SPHER) and solve(LM_ELLIP) end with a get_current_error not larger than before. From any trajectory the second-order modes end on a constant-velocity path. Hence from a trajectory off the path (INITIALIZE succeeded with error zero) the same call can increase the error.", "quantifier": "all programs and trajectories, all outcomes of the external routines", "why_tests_cant": "Number of iterations and data unbounded.", "anchors": ["src/PCRegistration/plane_registration.cpp: solve, update_state, bookkeep_state, update_state_from_bookkeep", "src/common/optimizer.cpp"]}
{"id": "C71", "title": "INITIALIZE aligns plane centres with the first scan", "statement": "If each plane has a point in the first scan, solve(INITIALIZE) does not throw and either returns 1 with each pose the unique least-squares alignment of the plane centres of that time with those of time 0, or returns 0 because the centres of some time do not determine one (earlier poses are updated, later ones not). If the scans are rigid copies of the first and the centres are spread, it returns 1 with the true motion. With a plane that is not in the first scan the call is out of range or aligns centres of different planes.", "quantifier": "all programs that build a problem, every exact SVD", "why_tests_cant": "Continuum of data, any number of planes, points and poses.", "anchors": ["src/PCRegistration/plane_registration.cpp: solve_initialize"]}
{"id": "C72", "title": "Plane registration modes and return value", "statement": "solve returns 0 in all modes but INITIALIZE, converged or not. GRADIENT and GN_CLAMPED_HESSIAN change no pose. singleIteration is only honoured by GRADIENT_BENGIOS_NAG. The second-order modes end without exception if all planes are made for the number of poses. Every mode keeps plane ids, points, counts, the number of poses and the first pose.", "quantifier": "all programs, modes and outcomes of the external routines", "why_tests_cant": "Number of iterations and data unbounded.", "anchors": ["src/PCRegistration/plane_registration.cpp: solve"]}
{"id": "C73", "title": "Gradient and Hessian handed to the plane registration optimizer", "statement": "For a trajectory of n >= 2 poses, calculate_gradient_hessian succeeds exactly when every plane is made for n poses, and returns six numbers and a 6x6 matrix. If every plane has a single best fit, the numbers are the derivative of get_current_error when each pose t is moved by exp(s*t/(n-1)*xi) on the left. For two poses that is the derivative along the update the optimizer applies (update_state_from_solution), and on translations the matrix is the second derivative of the sum of squares along that update with the planes held. For three poses both are false: the reported slope of an update can be 0 where the error grows with slope 1, and the reported curvature 6 where it is 3.", "quantifier": "all programs, points, trajectories and update directions", "why_tests_cant": "Derivatives quantify over all directions and arbitrary data.", "anchors": ["src/PCRegistration/plane_registration.cpp: calculate_gradient_hessian, update_state_from_solution", "src/PCRegistration/plane.cpp: calculate_gradient, calculate_hessian"]}
{"id": "C74", "title": "Pose error of a plane registration against ground truth", "statement": "calculate_poses_rmse throws exactly when the ground truth has more poses than the trajectory. Its result e satisfies e*e*n = sum of squared SE3 distances, so no compared pose is further than e*sqrt(n); it does not change when trajectory and ground truth are multiplied by the same pose on the right. It is 0 for the trajectory itself; if it is 0 on a full ground truth, the poses are equal up to half-turns about (1,1,0) or (1,-1,0), which the logarithm does not see. A ground truth that stops early is accepted and the remaining poses are not compared, so 0 does not mean the trajectories agree.", "quantifier": "all programs and ground truths", "why_tests_cant": "Lengths and poses are arbitrary.", "anchors": ["src/PCRegistration/plane_registration.cpp: calculate_poses_rmse"]}
{"id": "C75", "title": "What a Python session reads back from a graph", "statement": "In every Python session that uses ids it was given: after add_node the list of estimated states is the old one followed by the state given (planes scaled to a unit normal), so a state is found at the id returned for it. Adding a factor changes no state, except that a factor whose constructor initialises one of its nodes sets exactly that one, from the states of the nodes it was given. chi2 changes no state; solve keeps the number of states and the states of the anchors. After a Gauss-Newton solve get_chi2_array is that of the state before the step, so chi2(false) is not the chi2 of the solution; after Levenberg-Marquardt it is that of the solution, unless the last step was rejected, when its sum is too large.", "quantifier": "all sessions, factors, states and linear solvers", "why_tests_cant": "The number of nodes, factors and calls is arbitrary.", "anchors": ["src/FGraph/factor_graph_solve.cpp: get_estimated_state, get_chi2_array, chi2, solve", "mrobpy/FGraphPy.cpp"]}
{"id": "C76", "title": "Sparse and dense solver compared", "statement": "In a graph without anchors, all factors quadratic and joining k nodes, with symmetric information matrices: the Hessian of the dense solver is the information matrix of the sparse one (also with spherical damping by the same lambda), its gradient is k times the right-hand side of the sparse one, and with exact linear algebra its step is k times the Gauss-Newton step. So with one-node factors both move every node to the same state. They do not agree in general: with a factor between two nodes there is a graph at its optimum that the sparse solver leaves alone and the dense solver makes worse.", "quantifier": "all such graphs, factors and states; exact linear solver and inverse", "why_tests_cant": "The number of nodes and factors and the functions of the factors are arbitrary.", "anchors": ["src/FGraph/factor_graph_solve.cpp: optimize_gauss_newton", "src/FGraph/factor_graph_solve_dense.cpp: calculate_gradient_hessian", "src/common/optimizer.cpp: optimize_newton_raphson_one_iteration"]}
{"id": "C77", "title": "Registrations filled from one CreatePoints", "statement": "create_plane_registration gives the same Plane objects to every registration it fills. The registration filled last behaves as if it had planes of its own: its answers do not depend on what was done before or is done meanwhile to the other registrations, as long as no points are pushed and nobody fills again. The ones filled earlier do not: get_current_error returns the error of the registration filled last, nothing done to them changes it, and their Newton-Raphson and Levenberg-Marquardt solves stop after one iteration. So filling a second registration can turn the error of the first from zero to positive while its trajectory is the true one.", "quantifier": "all scenes, any number of registrations, all sequences of fills and calls on them", "why_tests_cant": "The number of registrations and calls, their interleaving, the scenes and the eigen solver are arbitrary.", "anchors": ["src/PCRegistration/create_points.cpp: create_plane_registration", "src/PCRegistration/plane_registration.cpp: add_plane, get_current_error, solve", "src/PCRegistration/mrob/plane.hpp: set_trajectory"]}
{"id": "C78", "title": "What print_evaluate reports about a plane registration", "statement": "After any program with at least one pose, print_evaluate works exactly when every plane fits the trajectory, no more planes were added than set_number_planes_and_poses declared (else it writes out of range), and the last mode is neither INITIALIZE nor GN_CLAMPED_HESSIAN unless a report was made before (else it reads uninitialised memory). It returns 13 numbers: the declared number of planes (not the number added), the poses, the points accepted, the iterations of the last solve that counts them, the time, the error the last solve started from (kept by set_number_planes_and_poses, so it can be of another problem), the error of the current poses, and six eigenvalues. It moves no pose, and reporting again gives the same numbers. The eigenvalues are those of the Hessian of the last iteration of Gauss-Newton; after Levenberg-Marquardt the damping is included, so with spherical damping the smallest eigenvalue of the Hessian is strictly smaller than the one reported; after the gradient modes they are those of the zero matrix; after the other modes they are those of the last report.", "quantifier": "all finite programs with reports anywhere, all outcomes of the external routines", "why_tests_cant": "The number of calls, planes, points and poses and the data are arbitrary.", "anchors": ["src/PCRegistration/plane_registration.cpp: print_evaluate, solve, set_number_planes_and_poses", "src/common/optimizer.cpp: optimize_newton_raphson_one_iteration"]}
{"id": "C79", "title": "Planar problems in two coordinate frames", "statement": "Take a planar session (poses and landmarks, priors, relative poses, odometry, range/bearing observations, calls of solve and chi2, any number in any order) and write the same session down in another frame, turned by any angle and shifted: initial states and prior observations moved, information of priors and odometry turned, relative observations unchanged. Then all estimated states are moved copies of each other throughout, after any number of Gauss-Newton or Levenberg-Marquardt solves, and chi2 and get_chi2_array are equal. Needed: a linear solver that solves nonsingular systems, nonsingular Gauss-Newton systems, symmetric positive semidefinite information, not RANSAC, and for solves information of landmark observations that looks the same from all sides. Without solves chi2 is the same for all information matrices, robust functions and linear solvers. Three things a user would expect fail: initialising the target from a relative pose ignores the heading of the origin; the information of odometry is about the axes of the world; a landmark closer than 1e-3 to its pose is weighted along the axes of the world, so the step depends on the frame.", "quantifier": "all planar sessions, frames and exact linear solvers", "why_tests_cant": "Sessions, angles, shifts and data are arbitrary, and two whole runs of the solver are compared.", "anchors": ["src/FGraph/factor_graph_solve.cpp: solve, chi2", "src/FGraph/factors/factor1Pose2d.cpp, factor2Poses2d.cpp, factor1Pose1Landmark2d.cpp", "mrobpy/FGraphPy.cpp"]}
{"id": "C80", "title": "Which graphs determine their solution", "statement": "Call a node held if it is an anchor, has a prior, or is tied to a held node by a relative pose or odometry (either way round), or is a landmark or plane observed from a held pose, with information about all coordinates. If every node of the graph is held, the matrix of the Gauss-Newton system is nonsingular in every state the calls can reach, so solve has one solution (and the Gauss-Newton solves that C79 asks to be well posed are). Conversely a set of planar nodes without anchors and priors, tied only to each other, floats: shifting it, and turning it if no odometry was read from it, is invisible to the matrix and orthogonal to the right-hand side, so the matrix is singular. So it is when a node has no factors, and when a planar pose only sees one landmark, however often and even if the landmark is an anchor. Levenberg-Marquardt still works on a floating set of poses, and leaves the sum of their positions unchanged.", "quantifier": "all sessions, any number of nodes, factors and solves; all states reached", "why_tests_cant": "The graphs, the states at which the system is built, the information matrices and the linear solver are arbitrary.", "anchors": ["src/FGraph/factor_graph_solve.cpp: build_adjacency, build_info_adjacency, optimize_gauss_newton, optimize_levenberg_marquardt", "src/FGraph/factors: evaluate_jacobians", "mrobpy/FGraphPy.cpp"]}
{"id": "C81", "title": "Mapping from known poses", "statement": "When only 3D landmarks are estimated and all other nodes are anchors, every landmark being observed with information about all coordinates, one Gauss-Newton solve with the quadratic cost gives the map with the smallest chi2 among all positions of the landmarks, and no other map has that chi2. So the result depends on the measurements and the known poses only: not on the initial positions of the landmarks, the order of the calls, the initialise flags or earlier solves, and a second solve changes nothing. If the observations of a landmark are equally good in all directions, it ends at the weighted mean of its observations taken to the frame of the map.", "quantifier": "all sessions of that kind, any number of poses, landmarks and observations; all initial positions", "why_tests_cant": "Optimality is a statement about all alternative maps, and order independence about all permutations of the calls.", "anchors": ["src/FGraph/factors/factor1Pose1Landmark3d.cpp: evaluate_residuals, evaluate_jacobians", "src/FGraph/factors/nodeLandmark3d.cpp: update", "src/FGraph/factor_graph_solve.cpp: optimize_gauss_newton", "mrobpy/FGraphPy.cpp"]}
{"id": "C82", "title": "3D sessions in another coordinate frame", "statement": "If a 3D session (poses, landmarks, planes, priors, relative poses, landmark, plane and point-to-plane observations) is written down in another coordinate frame, then every state read back is the moved copy of the original one and chi2 is the same, provided the rotation errors of priors and relative poses are below a quarter turn; every session can be written down in the other frame. A landmark map computed from known poses by Gauss-Newton is the moved copy of the map computed in the original frame. Two things do depend on the frame: the information of a relative pose is about a twist at the origin of the map, so keeping it while moving the scene away by L multiplies the cost of a yaw error by 1 + L^2; and above a quarter turn the cost of the same error can be 2 in one frame and 0 in another.", "quantifier": "all rigid changes of frame, all 3D sessions, all positions of the nodes", "why_tests_cant": "Frame independence is about all rigid motions at once; the dependence on the origin only shows far from it and the other one only for special axes.", "anchors": ["src/FGraph/factors/factor1Pose3d.cpp", "src/FGraph/factors/factor2Poses3d.cpp: evaluate_residuals", "src/FGraph/factors/factor1Pose1Landmark3d.cpp", "src/FGraph/factors/factor1Pose1Plane4d.cpp", "src/PCRegistration/factors/factor1PosePoint2Plane.cpp", "src/geometry/SE3.cpp: ln, exp, adj", "src/geometry/SO3.cpp: ln"]}
{"id": "C83", "title": "Mapping by Levenberg-Marquardt", "statement": "When only 3D landmarks are estimated, from known poses, and each is observed with information of at least mu in every direction, solving by Levenberg-Marquardt leads to the map that Gauss-Newton finds: no pass of the loop is rejected, lambda never grows, and with c = 1/(400000 mu) the excess of chi2 over the smallest possible value is multiplied by c in the first pass, c/4 in the second, c/16 in the third and so on; if the loop stops early because of the tolerance, the excess left is at most c tol/(1 - c). Every landmark is within sqrt(2 excess / mu) of its best position. Nothing but the landmarks moves.", "quantifier": "all maps, all numbers of landmarks and observations, all starting positions, all iteration limits and tolerances", "why_tests_cant": "Rates and bounds over all maps and all iteration counts; a test sees one sequence of chi2 values.", "anchors": ["src/FGraph/factor_graph_solve.cpp: optimize_levenberg_marquardt", "src/FGraph/factors/factor1Pose1Landmark3d.cpp", "src/FGraph/factors/nodeLandmark3d.cpp"]}
{"id": "C84", "title": "The order in which a graph is built does not matter", "statement": "Two sessions that create the same nodes (the same anchors) under different ids and enter the same measurements in any order, and whose nodes have the same states, have the same chi2; after the same solve call, by Gauss-Newton (when the nodes are held) or Levenberg-Marquardt with any iteration limit and tolerance, their nodes have the same states again and the same chi2. The ids of two poses joined by a relative pose or odometry have to keep their order (C42, C43); poses may come before or after the landmarks and planes they observe. Without a robust function, a measurement may also be entered as several whose informations add up to its own. With a robust function that changes the result.", "quantifier": "all pairs of sessions with the same nodes and measurements, all renumberings that keep the order of joined poses, all kinds of factors, all robust functions except RANSAC, all iteration limits and tolerances", "why_tests_cant": "The orders of n nodes and m measurements are n! m! sessions; a test compares two of them, on one graph.", "anchors": ["src/FGraph/factor_graph_solve.cpp: build_adjacency, solve", "src/FGraph/factor_graph.cpp: add_node, add_factor", "src/FGraph/factors/factor1Pose1Landmark2d.cpp: reversedNodeOrder_", "src/FGraph/factors/factor1Pose1Landmark3d.cpp: reversedNodeOrder_", "src/FGraph/factors/factor1Pose1Plane4d.cpp: reversedNodeOrder_"]}
{"id": "C85", "title": "Solved graphs stay solved", "statement": "If the measurements of a graph hold each other in balance at the current states (no small motion of the estimated nodes changes the weighted cost to first order), then solving again, by Gauss-Newton (when the nodes are held) or by Levenberg-Marquardt with any iteration limit and tolerance, changes no state and not chi2. In particular a graph that meets all its measurements exactly keeps its states and chi2 0, whatever the robust function. The states have to be such as solving itself writes them: headings wrapped, normals of length one, 3D rotations that SO3::ln and SO3::exp reproduce. Conversely, when only landmarks are estimated, a Gauss-Newton step that moves nothing tells that the graph is balanced. Without the condition on rotations the statement is false: a pose turned by a half about (1,1,0) that meets its prior exactly is turned to the identity rotation by one Gauss-Newton step, and chi2 goes from 0 to 19.", "quantifier": "all sessions with any nodes and measurements, all robust functions except RANSAC, both methods, all iteration limits, initial lambdas and tolerances", "why_tests_cant": "A test checks one converged graph up to a tolerance; it cannot tell a fixed point from slow drift, nor cover the rotations at which the claim fails.", "anchors": ["src/FGraph/factor_graph_solve.cpp: solve, optimize_gauss_newton, optimize_levenberg_marquardt", "src/FGraph/factors/nodePose3d.cpp: update", "src/FGraph/factors/nodePose2d.cpp: update", "src/geometry/SE3.cpp: regenerate"]}
{"id": "C86", "title": "Planar pose graphs without loops are solved in two steps", "statement": "In a planar pose graph whose relative poses, odometry and priors reach the poses one by one from the anchors (no loops; the poses may be visited in any order and from either end of a measurement), with information about all coordinates, two Gauss-Newton steps from any initial states meet all measurements exactly: chi2 is 0 and further solving, by either method, changes nothing. After the first step all measured headings are met; when they are met at the start, one step is enough. This holds whatever the informations and the robust function, and in spite of the Jacobian of odometry (C41). One step alone is not enough in general.", "quantifier": "all planar sessions without loops of any size, all initial states, measurements and informations, all robust functions except RANSAC", "why_tests_cant": "A test runs one chain from one start until a tolerance is reached; exactness after a fixed number of steps for all starts is not a matter of samples.", "anchors": ["src/FGraph/factors/factor2Poses2d.cpp: evaluate_residuals, evaluate_jacobians", "src/FGraph/factors/factor1Pose2d.cpp", "src/FGraph/factors/nodePose2d.cpp: update", "src/FGraph/factor_graph_solve.cpp: optimize_gauss_newton"]}
{"id": "C87", "title": "Parts of a graph that share only anchors do not influence each other", "statement": "A part of a graph whose nodes appear, apart from anchors, in no measurement outside the part is moved by a Gauss-Newton step exactly as it would be if its nodes and measurements were solved alone, under any numbering of the nodes that keeps the order of the two ends of each relative measurement, and for any robust function. Levenberg-Marquardt does couple unconnected parts, because it keeps or undoes the steps of all nodes together: a graph with a 3D pose turned by a half turn, which already meets its prior, and an unconnected 2D pose, is left unchanged by any number of iterations, while the 2D pose alone is improved.", "quantifier": "all sessions and all their parts, of any size, in any states; all robust functions except RANSAC; for the failure of Levenberg-Marquardt: all iteration counts and tolerances", "why_tests_cant": "Independence of parts is a relation between runs on two different graphs of any size; a test sees single runs, and rounding hides exact equality.", "anchors": ["src/FGraph/factor_graph_solve.cpp: optimize_gauss_newton, optimize_levenberg_marquardt, synchronize_nodes_state", "src/FGraph/factor_graph_solve.cpp: build_adjacency", "src/geometry/SE3.cpp: regenerate"]}
{"id": "C88", "title": "What informations mean to the solver", "statement": "Measurements whose information is zero are as good as absent: adding any number of them changes neither chi2 nor the result of solving, by either method and with any robust function. Without a robust function, multiplying all informations by the same positive factor multiplies chi2 by that factor and leaves every Gauss-Newton step as it is, so only the ratios of informations matter. With a robust function the scale does matter (the weights compare chi2 with fixed thresholds), and so it does for Levenberg-Marquardt, whose damping starts at 1e-5 whatever the informations.", "quantifier": "all sessions of any size, all states, all proper informations and all factors a > 0; zero-information measurements of all kinds; for the first claim all robust functions except RANSAC and both methods", "why_tests_cant": "The claim relates runs on different graphs for all scales; rounding hides exact equality, and the dependence on scale shows only where one looks for it.", "anchors": ["src/FGraph/factor_graph_solve.cpp: build_adjacency, build_info_adjacency, optimize_levenberg_marquardt", "src/FGraph/factor.cpp: evaluate_robust_weight", "src/FGraph/factor_graph_solve.cpp: chi2"]}
{"id": "C89", "title": "What solving with a robust function minimises", "statement": "Let the cost of a measurement with chi2 c be c (no robust function), c or 2 sqrt c - 1 from c = 1 on (Huber), ln(1+c) (Cauchy), c/(1+c) (McClure), and the cost of a graph the sum over its measurements. Where the Jacobians of the measurements are the derivatives of their residuals, states at which no motion of the nodes changes this cost to first order are left as they are by both methods; from any other state a Gauss-Newton step sets out in a direction in which the cost drops, whatever curves the nodes follow; and if landmarks are all there is to estimate, Gauss-Newton leaves them alone only at such states. Levenberg-Marquardt compares plain chi2 whatever the robust function: from a least-squares optimum it only gets to least-squares optima, and so can stay at states where the robust cost is not stationary and Gauss-Newton lowers it. With 3D poses, whose Jacobians are the derivatives only at zero residual, both methods can stop where the cost has a slope.", "quantifier": "all sessions of any size, all states, all curves through them, all proper informations, all robust functions except RANSAC", "why_tests_cant": "The claim is about derivatives along all curves at all states; a test can only compare finitely many numbers, with rounding, and cannot tell a stationary point from a slow one.", "anchors": ["src/FGraph/factor.cpp: evaluate_robust_weight", "src/FGraph/factor_graph_solve.cpp: build_info_adjacency, optimize_gauss_newton, optimize_levenberg_marquardt", "src/FGraph/factors/: evaluate_residuals, evaluate_jacobians of all factors"]}
{"id": "C90", "title": "Levenberg-Marquardt comes to an end", "statement": "Let planar poses and landmarks be all there is to estimate, let no robust function be used, and let the Jacobians of the measurements be right wherever chi2 is not above its starting value. Then with a positive tolerance Levenberg-Marquardt reports convergence: there is a number of iterations from which on allowing more gives the same result. The reason is that from every state at which chi2 is not stationary a pass with a large enough lambda lowers chi2, and lambda doubles with every rejected pass. In any case the number of accepted passes times the tolerance is at most the total decrease of chi2, and with a tolerance of zero or less convergence is never reported. With a robust function, and with 3D poses, there are graphs at which every pass is rejected, however many are allowed.", "quantifier": "all sessions of any size, all starting states, all tolerances, all exact linear solvers; no bound on the number of passes", "why_tests_cant": "Termination for all inputs is a liveness property: a test that stops after some iterations shows nothing about other graphs, and one that does not stop shows nothing at all.", "anchors": ["src/FGraph/factor_graph_solve.cpp:140-211 optimize_levenberg_marquardt, solve", "src/FGraph/factor_graph_solve.cpp: build_problem, update_nodes, synchronize_nodes_auxiliary_state, synchronize_nodes_state", "src/FGraph/nodes/nodePose2d.cpp, nodeLandmark2d.cpp, nodeLandmark3d.cpp: update"]}
{"id": "C91", "title": "A pose is located by enough known landmarks and planes", "statement": "A pose whose other nodes are known is determined by Gauss-Newton (the system has exactly one solution) if and only if no turning and moving of space leaves all its observations as they are. So three known landmarks that are not on one line, three known planes with independent normals, or a known landmark and two known planes that are not parallel locate a 3D pose, and two known landmarks at different places (not both closer than 1e-3) locate a planar pose; what is located locates further nodes in turn. Landmarks on one line do not locate a pose, nor do planes and points on planes that all run along one direction (a corridor): the system is then singular. With exact observations of three landmarks not on a line there is only one rigid pose with zero residuals, and with two different planar landmarks (not nearby) only one planar pose, up to whole turns.", "quantifier": "all sessions of any size with any mix of nodes and factors, all states reached, all robust functions but RANSAC", "why_tests_cant": "Whether a system is singular depends on all observations and states together; tests see single scenes, and in floating point a singular system often just returns a wrong pose without an error.", "anchors": ["src/FGraph/factors/factor1Pose1Landmark2d.cpp, factor1Pose1Landmark3d.cpp, factor1Pose1Plane4d.cpp: evaluate_residuals, evaluate_jacobians", "src/PCRegistration/factors/factor1PosePoint2Plane.cpp: evaluate_jacobians", "src/FGraph/factor_graph_solve.cpp: build_problem, build_adjacency, build_info_adjacency"]}
{"id": "C92", "title": "A chi2 of zero means that the map is right", "statement": "If the measurements are free of noise and the chi2 of the graph is zero (as it is at every least-squares optimum then), every pinned node is where it truly is: planar headings up to turns, planes up to the sign of their equation. Pinned are anchors, nodes with priors, nodes that hang on pinned nodes by relative poses or odometry (either way) or as observed landmarks or planes, planar poses that see two pinned landmarks at different places and 3D poses that see three pinned landmarks on no line. This needs that no planar landmark is within 1e-3 of the pose that sees it and that the errors of 3D poses are not turns by a right angle or more about (1,1,0) or (1,-1,0): otherwise chi2 can be zero at a wrong map. Three known planes with independent normals determine the pose if it is on the positive side of all of them; behind two of them there is a second pose with chi2 zero.", "quantifier": "all sessions of any size with any mix of nodes and factors and calls of solve, all robust functions, all true arrangements", "why_tests_cant": "That no other arrangement has zero residuals is a statement about all arrangements of all nodes; a test that recovers the truth from one start says nothing about the others.", "anchors": ["src/FGraph/factor_graph.cpp, factor_graph_solve.cpp: chi2", "src/FGraph/factors/*.cpp: evaluate_residuals, evaluate_chi2", "src/FGraph/factors/factor1Pose1Landmark2d.cpp: evaluate_residuals (landmarks closer than 1e-3)", "src/FGraph/factors/factor1Pose1Plane4d.cpp: evaluate_residuals (planes behind the pose)"]}
{"id": "C93", "title": "What the gradient modes of the plane registration do", "statement": "GRADIENT_ALL_POSES is gradient descent: each pass moves every pose but the first by minus c times the gradient of the total error in that pose, c being alpha over the number of points seen from the last pose and over the number of poses; with c small enough a pass lowers the error unless all gradients are zero. GRADIENT_BENGIOS_NAG applies momentum with beta 0.1 to the last pose, with the gradient summed along the constant-velocity path, and puts the other poses on that path; the velocity is zero after set_number_planes_and_poses and reset_solution and is kept between solves. Both leave the first pose alone, always return 0, and stop when two errors in a row differ by at most 1e-4 or after 10000 passes. singleIteration works in the second mode only. The first mode is finite exactly if the last pose sees points, the second exactly if every pose but the first does, although Gauss-Newton needs neither.", "quantifier": "all programs of calls that build the planes, any numbers of poses, planes and points, all alpha, any number of earlier solves", "why_tests_cant": "Whether every pass follows the true gradient and where it stops is about all clouds and all iterations; a test sees one trajectory and cannot tell a gradient step from a step that happens to lower the error.", "anchors": ["src/PCRegistration/plane_registration.cpp: solve, solve_gradient_all_poses, solve_interpolate_gradient", "src/PCRegistration/mrob/plane_registration.hpp: set_alpha_parameter", "src/PCRegistration/plane.cpp: calculate_gradient, get_number_points"]}
{"id": "C94", "title": "Plane registrations in another coordinate frame", "statement": "Let the same calls be made with all points, and the poses, given in a frame moved by G, so that the trajectory is the same up to the frame. get_current_error is then the same if G only turns about the origin; with a translation t the two errors differ at most by the factor (1+|t|)^2, so that one is zero exactly if the other is. It is not a property of the map alone: moved by s in any direction v the error is at most the sum of the squares of v.x over all points, divided by 1+s^2, so that it becomes as small as one likes however bad the registration is. Which last pose has the least error also depends on the frame.", "quantifier": "all programs of calls, any numbers of poses, planes and points, all rigid G", "why_tests_cant": "The claim compares the minimum over all planes in two frames for every scene; tests use one frame, near the origin, where the difference is small.", "anchors": ["src/PCRegistration/plane_registration.cpp: get_current_error", "src/PCRegistration/plane.cpp: estimate_plane, calculate_all_matrices_S, calculate_all_matrices_Q"]}
{"id": "C95", "title": "Uncertainty of a chain of odometry", "statement": "Let the only measurements of a graph be 3D odometry from pose k to pose k+1, k = 0 .. n-1, the first pose an anchor, and let the poses agree with the increments. Then the information matrix of the problem (get_information_matrix) has an inverse, the covariance of the poses 1 .. n, and its 6x6 block of poses i and j is the sum of the inverse informations of the increments on the way to both. So the uncertainty of a pose only grows along the chain, later increments do not change it, and if the informations are the inverses of the increment covariances carried to the frame of the map by the adjoint of the starting pose, the blocks are what SE3Cov.compound_2nd_order gives. With the informations of the increments in their own frames they are not.", "quantifier": "all typed programs of FGraph calls of this shape (nodes, measurements and solves interleaved in any way), any number of poses, all informations with an inverse, all robust types but RANSAC", "why_tests_cant": "A statement about the inverse of a matrix of any size for all trajectories; the tests compare single numbers of small graphs and never relate the graph to SE3Cov.", "anchors": ["src/FGraph/factors/factor2Poses3d.cpp: evaluate_residuals, evaluate_jacobians", "src/FGraph/factor_graph_solve.cpp: build_adjacency, build_info_adjacency", "src/geometry/SE3cov.cpp: compound_2nd_order", "mrobpy/FGraphPy.cpp: get_information_matrix"]}
{"id": "C96", "title": "What more measurements do to the uncertainty", "statement": "The information matrix of a problem has an inverse (the covariance of the nodes) exactly if the problem determines its step, and that covariance is symmetric with no negative variances. If a graph is extended by measurements and nodes, in any order of the calls, and the states of the nodes that were there are the same, then the variance of no combination of the old nodes grows. If only measurements were added, a determined problem stays determined. A new node that a single measurement ties to the graph leaves every entry of the covariance of the old nodes as it was. All this is for the same states: a measurement that moves a landmark away can make it less certain.", "quantifier": "all typed programs of FGraph calls with symmetric positive informations, any number of nodes and measurements of all kinds, all robust types but RANSAC", "why_tests_cant": "A statement about the inverses of matrices of any size, for all ways in which a graph can be extended; tests look at single graphs and never at the covariance.", "anchors": ["src/FGraph/factor_graph_solve.cpp: build_adjacency, build_info_adjacency", "src/FGraph/factor_graph.cpp: add_node, add_factor", "src/FGraph/factors/*.cpp: evaluate_jacobians", "mrobpy/FGraphPy.cpp: get_information_matrix"]}
{"id": "C97", "title": "A new branch does not change the rest of the map", "statement": "Let a graph that determines its solution be extended by a branch: new nodes (poses, landmarks, planes), each tied to an earlier node, old or new, by a single measurement. Whatever the measurements and the states of the new nodes are, solve with Gauss-Newton takes the old nodes exactly where it takes them without the branch, in one solve and in any number of solves. The extended problem is determined as well, and the covariance of the old nodes read off its information matrix is the same.", "quantifier": "all typed programs of FGraph calls with symmetric positive informations and branches of any size, in any order of the calls, all robust types but RANSAC, exact linear solver", "why_tests_cant": "A statement about all graphs and all branches; a test compares two graphs at a time, and an error in the elimination of the new nodes shows only as a slightly different map.", "anchors": ["src/FGraph/factor_graph_solve.cpp: solve, optimize_gauss_newton, build_adjacency, build_info_adjacency", "src/FGraph/factors/*.cpp: evaluate_residuals, evaluate_jacobians", "mrobpy/FGraphPy.cpp: solve, get_estimated_state, get_information_matrix"]}
{"id": "C98", "title": "chi2 is on average half the degrees of freedom", "statement": "Let A be the adjacency matrix, W the weight matrix and C the inverse of the information matrix of a graph. H = A C A^T W, which takes the residuals to the part of them that a Gauss-Newton step explains, is a projection; its trace is the number of unknowns, and it never explains more of the cost than there is. So over runs of one problem whose measurement noise has the covariance W^-1 the least linearised cost is on average the number of residuals less the number of unknowns, whatever the initial guesses are; and when landmarks are mapped from known poses, chi2 after a single Gauss-Newton step is on average half of that.", "quantifier": "all typed programs of FGraph calls with symmetric positive informations that determine their solution, any finite set of runs whose noise has the stated second moments; the statement on chi2: landmarks in 3d, known poses, exact linear solver", "why_tests_cant": "A statement about averages over all noise and about all graphs; a test sees one value of chi2, which may be anything.", "anchors": ["src/FGraph/factor_graph_solve.cpp: build_adjacency, build_info_adjacency, optimize_gauss_newton, chi2", "src/FGraph/mrob/factor_graph_solve.hpp: get_adjacency_matrix, get_W_matrix, get_information_matrix", "mrobpy/FGraphPy.cpp: solve, chi2, get_adjacency_matrix, get_W_matrix, get_information_matrix"]}
{"id": "C99", "title": "Anchoring nodes never increases the uncertainty", "statement": "Let a graph be built again with the same measurements, in any order, and the same states, but with some of its nodes created as anchors. If the first graph determines its solution then so does the second, and every linear combination of the states of the nodes has in the second graph at most the variance that it has in the first, read off the inverse of the information matrix; coordinates of anchors count as certain.", "quantifier": "all typed programs of FGraph calls with symmetric positive informations, any set of nodes made anchors, any combination of any coordinates, all robust types but RANSAC", "why_tests_cant": "A statement about all graphs, all sets of anchors and all combinations; a wrong index for the nodes after an anchor gives a plausible matrix of the right size.", "anchors": ["src/FGraph/factor_graph_solve.cpp: build_adjacency, build_info_adjacency", "src/FGraph/factor_graph.cpp: add_node", "mrobpy/FGraphPy.cpp: add_node_pose_2d, add_node_pose_3d, get_information_matrix"]}
{"id": "C100", "title": "One more measurement is a Kalman update", "statement": "Let a graph that determines its solution get one more measurement among its nodes, with an invertible information matrix, while its states stay as they are. Then its rows are the last ones of the adjacency matrix, and the inverse of the new information matrix, the new solution of the normal equations and the new least value of the linearised cost follow from the old ones as in a Kalman filter: with the covariance N of the measurement, the inverse of its information times its robust weight, the innovation covariance S = J C J' + N and the gain C J' S^-1, the covariance becomes C - C J' S^-1 J C, the solution moves by the gain times the innovation, and the cost grows by the square of the innovation weighed by S^-1. S is always invertible.", "quantifier": "all typed programs of FGraph calls with symmetric positive informations, any further measurement of any kind with invertible information, all robust types but RANSAC (the information times the robust weight), any states", "why_tests_cant": "A statement about inverses for all graphs and measurements; the batch solver and the recursive formula share no code, and a row in the wrong place or a weight applied twice gives a solution that is merely less accurate.", "anchors": ["src/FGraph/factor_graph_solve.cpp: build_adjacency, build_info_adjacency", "src/FGraph/factor_graph.cpp: add_factor", "mrobpy/FGraphPy.cpp: get_information_matrix, get_adjacency_matrix"]}
{"id": "C101", "title": "The uncertainty does not depend on the order in which the graph was built", "statement": "Let two programs build the same graph: the same nodes under other ids, the same measurements in another order, the two poses of a relative measurement in the same order of ids. At the same states, either both determine their solution or neither does, and the covariance of any two linear combinations of the states, read off the inverse of the information matrix, is the same in both. With the quadratic cost this also holds if measurements are entered in several shares whose informations add up.", "quantifier": "all typed programs of FGraph calls with symmetric positive informations, all renumberings and orders, all combinations, all robust types but RANSAC (shares: the quadratic cost)", "why_tests_cant": "A statement about all orders of all graphs; the information matrices themselves differ, only what they say about the nodes agrees.", "anchors": ["src/FGraph/factor_graph_solve.cpp: build_index_nodes_matrix, build_adjacency, build_info_adjacency", "src/FGraph/factor_graph.cpp: add_node, add_factor", "mrobpy/FGraphPy.cpp: get_information_matrix"]}
{"id": "C102", "title": "In the plane, the uncertainty turns with the coordinate frame", "statement": "Run a planar session and the same session in coordinates that are turned and shifted (observations of priors moved, their informations and those of odometry turned, relative observations as they are). Either both information matrices determine the solution or neither does. The covariance of any two linear combinations of the states equals the covariance of the turned combinations in the second frame. In particular the covariance of the position of every node is turned, the sum of its two variances is the same number, and so is the variance of a heading.", "quantifier": "all typed planar programs of FGraph calls with symmetric positive informations, including calls of solve, all frames, all combinations, all robust types but RANSAC", "why_tests_cant": "A statement about all frames and all graphs; a test compares a few of them up to rounding, and the matrices themselves differ.", "anchors": ["src/FGraph/factor_graph_solve.cpp: build_adjacency, build_info_adjacency", "src/FGraph/factors/factor2Poses2d.cpp: evaluate_jacobians", "src/FGraph/factors/factor1Pose1Landmark2d.cpp: evaluate_jacobians", "mrobpy/FGraphPy.cpp: get_information_matrix"]}
{"id": "C103", "title": "What informations mean for the uncertainty", "statement": "Measurements whose information is zero leave the uncertainty as it is: with or without them, a graph determines its solution or not, and the covariance of any two linear combinations of the states is the same. Without a robust function, multiplying all informations by the same positive factor divides every covariance by that factor.", "quantifier": "all typed programs of FGraph calls with symmetric positive informations, all factors, all combinations; the first part for all robust types but RANSAC", "why_tests_cant": "A statement about all graphs and all factors; a test compares a few of them up to rounding.", "anchors": ["src/FGraph/factor_graph_solve.cpp: build_adjacency, build_info_adjacency", "src/FGraph/factor.cpp: evaluate_robust_weight", "mrobpy/FGraphPy.cpp: get_information_matrix"]}
{"id": "C104", "title": "Parts of a graph that share only anchors are uncorrelated", "statement": "If the nodes of a graph are on two sides and no measurement joins nodes of both sides, anchors aside, then the covariance of a linear combination of states on one side with one on the other is zero, and the variance of their difference is the sum of their variances. The uncertainty of a part of a graph that the other measurements touch only at anchors is the uncertainty the part has as a graph of its own.", "quantifier": "all typed programs of FGraph calls with symmetric positive informations that determine their solution, all divisions into sides and all parts, all combinations, all robust types but RANSAC", "why_tests_cant": "A statement about all graphs and all divisions of their nodes; it is a property of the inverse of a matrix, which a test sees for a few graphs and up to rounding.", "anchors": ["src/FGraph/factor_graph_solve.cpp: build_index_nodes_matrix, build_adjacency, build_info_adjacency", "mrobpy/FGraphPy.cpp: get_information_matrix"]}
{"id": "C105", "title": "What repeating every measurement does", "statement": "If every measurement of a graph is made m times with the same outcome, chi2 is m times as large, the graph determines its solution exactly if it did before, and every covariance of linear combinations of the states is divided by m. If the solution is determined, a Gauss-Newton solve reaches the same states and again m times the chi2. The order of the repeated calls and the numbering of the nodes do not matter.", "quantifier": "all typed programs of FGraph calls with symmetric positive informations, all m, all combinations, all robust types but RANSAC; the statement about solve for exact linear solvers and programs in which every node is held (C80)", "why_tests_cant": "A statement about all graphs and all numbers of repetitions; a test compares a few of them up to rounding.", "anchors": ["src/FGraph/factor_graph_solve.cpp: build_adjacency, build_info_adjacency, optimize_gauss_newton, chi2", "src/FGraph/factor.cpp: evaluate_robust_weight", "mrobpy/FGraphPy.cpp: get_information_matrix"]}
