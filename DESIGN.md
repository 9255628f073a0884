# Design of the mrob verification

Source under study: `/repo` (MobileRoboticsSkoltech/mrob, pinned commit), read
as text only; nothing of it is built or run.  Model and proofs:
`/verif/rocq/theories`, Coq 8.16.1, logical name `Verif`.

Contents: 1 how the code is modelled; 2 trusted base; 3 files; 4 what is not
modelled; 5 where code and property disagree; 6 the properties one by one;
7 assumptions per theorem; 8 mutation testing.

## 1. How the code is modelled

* **Numbers.** `matData_t`/`double` is the real numbers `R` of the Coq standard
  library: every `+ - * / sqrt sin cos acos atan2` is exact.  The theorems
  describe the algorithm with exact arithmetic, including every branch
  threshold written in the source (`1e-5`, `1e-3`, `5e-3`, `6e-8`, `1e-6`, ...).
  `M_PI` is `PI`.  Two claims are about rounding itself and use IEEE numbers
  (Flocq): C23 (`wrap_angle` in binary64) and C62 (the plane index of
  `CreatePoints`, computed in binary32).
* **NaN.** `acos` outside [-1,1] gives NaN in the code; the model returns
  `None` and follows the `isnan` branches.  In the optimizer loops errors are
  `option R` with `None` = NaN and C++ comparison semantics (every comparison
  with NaN false).  In `FGraphSolve` chi2 is a real number; NaN is treated in
  `C36_nan_refuted` on the comparison alone.  `sqrt(x)` of a negative chi2 (non
  PSD information matrix) is `sqrt` of the standard library (0), where the code
  has NaN; the robust-weight theorems are about arguments >= 0.  In `gicp` and
  `weight_point` a failed `inverse()` is an arbitrary matrix.
* **atan2** is the real function with values in (-pi, pi]; signed zeros are not
  distinguished, so `atan2(-0.0, -1)` is pi here and -pi in C.
* **Division by zero** gives `x * / 0`, an unspecified real, where the code has
  inf or NaN; statements exclude a zero denominator by a hypothesis or the model
  branches on it.
* **Integers.** `uint_t`, `size_t` are unbounded `nat` (no wrap-around), unless
  the comment at the definition says otherwise.  Clock ticks in Profiling.v are
  `Z`.
* **Matrices.** Fixed-size Eigen matrices are records (3-vectors, 3x3; 4x4 and
  6x6 as blocks).  Dynamic ones are functions of indices with dimensions or
  lists.  Eigen is not in the tree (`external/Eigen` is empty): its documented
  semantics is modelled, including "a sparse entry inserted twice is undefined".
* **Asserts.** The CMake default build type is Release, so asserts are not
  executed.  Out-of-range accesses, `erase(end())`, duplicated sparse `insert`,
  `at()` throwing and similar are explicit `None` outcomes of the model.
* **External kernels** (SVD in `arun`, symmetric eigen solver in
  `estimate_plane` and `Plane`, sparse and dense LDLT, `inverse()`) are
  arguments of the model functions.  A theorem either holds for *every* result
  of the kernel or states exactness of the result *on the matrix of that call*
  as a hypothesis (`exact_svd`, `exact_eigen`, "smallest eigenpair", `L dx = b`).
  `Spectral.v` and `PlanesEigen.v` prove that such exact results always exist,
  so the hypotheses can be met.
* **Heap.** `shared_ptr<Node>`/`shared_ptr<Factor>` are locations in an explicit
  heap, so aliasing (adding the same node twice) and reference cycles are
  expressible.  Planes handed to `add_plane` are copied into the model of
  `PlaneRegistration`; changing them afterwards through the caller's pointer is
  not modelled.
* **Containers.** `std::unordered_map` of planes is iterated in insertion order;
  the order of iteration only matters for the order of sums and for the order of
  pairs given to `arun`, and the theorems about those speak about sums and
  minimisers.  `std::vector`, `std::deque` are lists.
* **Loops** are structural recursion on the number of iterations left or on fuel
  with a theorem that the fuel suffices (C22, C23, C37, C54, C57).
* **Randomness** (`CreatePoints`) is an arbitrary list of draws; theorems hold
  for all draws.

## 2. Trusted base

1. The Coq 8.16.1 kernel (no `-type-in-type`, no `bypass_check`, no
   `Admitted`; every file is compiled from source with the flags of
   `_CoqProject`).
2. The axioms `Print Assumptions` lists; all four belong to the Coq standard
   library and come with its real numbers:
   * F: `ClassicalDedekindReals.sig_forall_dec`
   * N: `ClassicalDedekindReals.sig_not_dec`
   * X: `FunctionalExtensionality.functional_extensionality_dep`
   * C: `Classical_Prop.classic`

   Section 7 lists them per theorem.  Flocq and Coquelicot are used inside
   proofs (and Flocq's number formats in C23 and C62); they add no axiom.
3. The faithfulness of the hand-written model: each definition cites file and
   lines and states its simplifications.  Nothing links it mechanically to the
   C++ text.
4. The specifications in `Spec*.v` and in the statements of `Prop*.v`.

## 3. Files (`rocq/theories`)

Model, one definition per C++ function:

| file | code |
|------|------|
| Lin | fixed-size vectors and matrices (`common/mrob/matrix_base.hpp`) |
| SO3, SO3Ops | `geometry/SO3.cpp`, sequences of calls on one object |
| SE3, SE3Ops | `geometry/SE3.cpp`, sequences of calls |
| SE3Cov | `geometry/SE3cov.cpp` |
| Angle | `wrap_angle` (`FGraph/node.cpp`), over R and over binary64 |
| Nodes | `FGraph/factors/node*.cpp` |
| Robust | `Factor::evaluate_robust_weight` |
| Graph | `FGraph/node.cpp`, `factor.cpp`, `factor_graph.cpp` and headers |
| Solve | `FGraph/factor_graph_solve.cpp` |
| Session | programs of C++ calls and of Python calls (`mrobpy/FGraphPy.cpp`) |
| Factors | `FGraph/factors/factor*.cpp`, `factor1PosePoint2Plane.cpp` |
| Optimizer | `common/optimizer.cpp` |
| Dense | `FGraph/factor_graph_solve_dense.cpp` |
| Registration | `arun.cpp`, `gicp.cpp`, `weight_point.cpp`, `estimate_plane.cpp`, `PCRegistrationPy.cpp` |
| Planes | `plane.cpp`, `plane_registration.cpp` |
| CreatePoints | `create_points.cpp` |
| SharedPlanes | registrations filled from one CreatePoints: planes shared |
| Evaluate | PlaneRegistration::print_evaluate with the members it reads |
| Profiling | `common/time_profiling.cpp` |

Specifications, written without the code's formulas: SpecGeom, SpecSolve,
SpecFactors, SpecDense, SpecRegistration, SpecPlanes, SpecPlaneReg, SpecFrame, SpecSolvable, SpecMapping, SpecFrame3, SpecLMMapping, SpecReorder, SpecFixed, SpecTree, SpecParts, SpecInfos, SpecRobustCost, SpecLMStops, SpecLocate, SpecRightMap, SpecDescent, SpecPlaneFrame, SpecChain, SpecGrow, SpecBranch, SpecDof, SpecPin, SpecKalman, Sums.

Proofs: LinFacts SO3Exp TrigBounds SO3ExpTrue SO3Ln SO3Misc SO3Near SO3Dist SO3Tri
SE3Alg SE3Exp SE3Ln SE3NearPi SE3CovProofs SE3Cov4 AngleProofs Angle64 NodesProofs
RobustProofs GraphProofs SolveIndex SolveFrame SolveSums SolveBuild SolveProofs
SessionProofs FactorsDer FactorsPlanar Factors3D Factors3DLn FactorsMore
FactorsSession OptimizerProofs DenseProofs ArunProofs RegistrationProofs
SE3Tangent RegistrationMore Spectral PlanesProofs PlanesEigen PlanesMore
PlanesHess PlaneRegProofs PlaneRegMore PlaneRegSolve PlaneRegInit PlaneRegBox
PlaneRegMis PlaneRegGrad PlaneRegGrad3 PlaneRegHess CreatePointsFloat CreatePointsProofs CreatePointsReg
SharedPlanesProofs SharedPlanesMore SharedPlanesWitness SharedPlanesSolve
EvaluateProofs FrameFactors Gauss FrameSolve FrameSession SolvableFactors SolvableSession
FloatSession MappingSession Frame3Factors Frame3Session Frame3Map LMMapping Reorder ReorderSolve Fixed Tree Parts Infos RobustCost LMStops Locate RightMap Descent PlaneFrame Chain Grow Branch Dof Pin Kalman Alike Turned Scaled.

Property theorems, `Print Assumptions`, and an `Example` beside each theorem
that a non-trivial case meets its hypotheses: PropSO3 PropSE3 PropSE3Cov
PropAngle PropNodes PropGraph PropSolve PropFactors PropOptimizer PropDense
PropRegistration PropPlanes PropPlaneReg PropPlaneGrad
PropPoseError PropCreatePoints PropProfiling PropReadback PropTwoSolvers PropSharedPlanes
PropEvaluate PropFrame PropSolvable PropMapping PropFrame3 PropLMMapping PropReorder PropFixed PropTree PropParts PropInfos PropRobustCost PropLMStops PropLocate PropRightMap PropDescent PropPlaneFrame PropChain PropGrow PropBranch PropDof PropPin PropKalman PropAlike PropTurned PropWorth PropSides PropRepeat.

Names: `Cxx_…_refuted` is the negation of (a part of) the English claim, with a
witness; the other theorems of the same property say what does hold.  A property
is marked `proved` when each sentence of its statement is a theorem (sentences
that describe a defect are the `_refuted` theorems).

## 4. What is not modelled

* Printing (`print()`, `cout`), and the text output of the profiler apart from
  its numbers.
* The pybind11 glue, except the methods of `FGraphPy` (Session.v), the Python
  entry points of arun/gicp/weighted (Registration.v) and argument conversion
  where it discards a result (C56).
* `src/EigenFactors` (commented out in CMake) and
  `factor1PosePoint2Point.cpp` (not in any CMake source list).
* `loam.hpp` (declaration only), the example programs and tests.
* The SCHUR build method and the cholmod/LDLT internals; matrix ordering.
* Floating-point rounding outside C23 and C62, integer overflow, memory
  exhaustion, threads.
* The random engines and the wall clock (arbitrary inputs instead).

## 5. Where the code disagrees with what a user would expect

Each item is a theorem (the property in brackets).

Geometry
* `SO3::ln` returns 0 for rotations about (1,1,0) and (1,-1,0) of 90 degrees or
  more [C03 C04]; hence `regenerate` destroys such poses [C17], the distance of
  different poses can be 0 and the triangle inequality fails [C10 C18], 3D factors have wrong zeros [C48].
* `isSO3` only looks at the determinant; `isSE3` accepts wrong last rows [C07 C16].
* `compound_4th_order` transposes one block and can return an indefinite
  covariance [C21].
* `wrap_angle` never returns for infinities and doubles above 2^56 [C23].

Factor graph
* The robust weight uses sqrt(r^T W r / 2); RANSAC always gives weight 0 [C26].
* Eigen factors are counted in the observation dimension [C28]; adding twice
  duplicates [C30]; removing an absent factor is undefined [C31]; objects of a
  factor whose nodes were not all added leak [C64].
* `build_adjacency` is undefined for a repeated node in a factor, for eigen
  factors, and for a node anchored after it was added [C32 C35 C65].
* LM ignores its lambda argument, and so does GN [C38]; maxIters = 0 still runs
  one iteration [C37 C54]; NaN steps are kept [C36 C53].
* `Factor2Poses2d` and `Factor2Poses2dOdom` with reversed ids use -obs;
  `Factor2Poses3d` computes the inverse and discards it [C42 C43].
* The odometry Jacobian is wrong unless the first rotation or the distance is
  zero [C41]; `updateNodeTarget` ignores the origin heading [C44]; the 2D
  landmark residual is 0 within 1 mm [C45]; the 3D landmark ignores
  initializeLandmark [C46]; the plane Jacobian is not that of the normalised
  update [C47].
* The dense solver multiplies gradients by the number of nodes of a factor,
  ignores robust weights, writes out of range with anchors [C51 C52], and its step differs from Gauss-Newton by
  that factor, so it can leave an optimum [C76].

Registration
* `arun` rejects symmetric clouds and small clouds; Python hides it [C56].
* `gicp` treats the weights as constant; a fixed point need not be a minimum [C57].
* `Plane`: points pushed after an evaluation are ignored, `clear_points` makes
  the plane unusable, the error depends on the world origin, the rotation block
  of the Hessian double-counts a term, repeated incremental estimates are wrong
  [C59 C60 C61 C67].
* `PlaneRegistration`: `set_last_pose` with one pose does nothing [C69]; LM
  restores re-interpolated poses, so off a constant-velocity path it can
  increase the error [C70]; INITIALIZE mispairs or reads out of range when a
  plane is missing from the first scan, and a return of 0 leaves earlier poses
  changed [C71]; `solve` returns 0 whether or not it converged, GRADIENT and
  GN_CLAMPED_HESSIAN do nothing, `singleIteration` is ignored by most modes
  [C72]; from three poses on, gradient and Hessian are not those of the error
  along the update the optimizer applies [C73];
  `calculate_poses_rmse` ignores the poses after a short ground truth [C74];
  `print_evaluate` writes out of range when more planes were added than declared,
  reads uninitialised memory after INITIALIZE, counts declared planes, and its
  eigenvalues include the damping [C78].
* After a Gauss-Newton `solve`, `chi2(False)` and `get_chi2_array` belong to the state before the
  step; after a Levenberg-Marquardt solve whose last step was rejected they are too large [C75, C39].
* `Factor2Poses2d` with `updateNodeTarget` adds the relative pose to the origin without
  turning it; the information of odometry and of a landmark closer than 1e-3 is about
  the axes of the world, so results depend on the choice of frame [C79].
* The information of `Factor1Pose3d` and `Factor2Poses3d` is about a twist at the origin of
  the map: with the same observation and information, the cost of a yaw error grows with the square of
  the distance from the origin; and because `SO3::ln` loses some axes above a
  quarter turn, the same error costs 2 in one frame and 0 in another [C82].
* Solving a graph that already meets all its measurements can spoil it: `NodePose3d::update`
  regenerates the rotation even for a zero step, and a half turn about (1,1,0) becomes the
  identity; chi2 goes from 0 to 19 in the example [C85].
* Levenberg-Marquardt keeps or undoes the step of the whole graph at once. Such a pose therefore
  blocks it: every step raises chi2 and is undone, and no node of the graph moves, not even in parts
  that have nothing to do with the pose, however many iterations are allowed [C87].
* Levenberg-Marquardt accepts or rejects steps by the plain chi2 (factor_graph_solve.cpp:140-211), never by the
  cost that the robust weights belong to. Started at the least-squares optimum it therefore stays there whatever
  the robust function, although that state is not stationary for the robust cost and a Gauss-Newton step lowers it
  (C89_least_squares, C89_lm_refuted).
* Because the Jacobians of the 3D pose factors are the derivatives only at zero residual (C48), both methods can stop
  at states where chi2 has a slope: a pose half way between two priors with uneven information is left as it is,
  although turning it lowers chi2 (C89_3d_refuted).
* With the plain quadratic cost, right Jacobians and a positive tolerance Levenberg-Marquardt always ends by reporting
  convergence (C90_converges). With a robust function it need not: between two conflicting priors every pass is rejected
  and lambda doubles until the iterations run out (C90_robust_refuted); the same with a 3D pose half a turn from its
  prior, which also blocks every other node of the graph (C90_3d_refuted). The caller cannot tell: `solve` returns nothing.
* C92: a chi2 of zero does not prove a map right. A landmark that starts within 1e-3 of its pose has a zero residual whatever its measured range, a 3D pose half a turn about (1,1,0) from its prior has a zero residual, and a pose behind two of three known walls, turned around, sees them as measured: `Factor1Pose1Plane4d` flips the sign of planes behind the pose.
* C93: `PlaneRegistration::solve` calls `solve_gradient_all_poses()` without passing `singleIteration` on, so this mode never stops after one iteration. The step of every pose is divided by the number of points seen from the last pose, as `numberPoints` is reset for each pose and read after the loop: without points at the last pose the whole trajectory becomes not finite. GRADIENT_BENGIOS_NAG has the same trouble with any pose but the first that sees no points. GN_HESSIAN solves both.
* C94: the plane error is measured with plane equations (n, d) of unit length as 4-vectors, so it depends on where the origin is. Scans given s metres away have an error of at most a constant over 1 + s^2, and the last pose with the least error in one frame is not the best one in another.
* C95: Factor2Poses3d takes its information in the frame of the map (the residual is Ln(T0 Tobs T1^-1)), while SE3Cov takes the covariance of an increment in the frame of the pose it starts from. The same numbers given to both yield different covariances as soon as the first pose of an increment is not at the origin.
* C96: the covariance read off the information matrix is that of the linearisation at the current states. A measurement that moves the estimate can make it larger: a landmark that a second range moves from 1 m to 10 m becomes less certain across the line of sight (C96_moved_refuted).
* Filling a second registration from one `CreatePoints` re-points the planes of the
  first, which from then on reports the error of the second [C77].
* `CreatePoints` reads out of range for 8486572 points and 2051 planes [C62].
* The profiler counts time twice after consecutive stops [C63].

## 6. The properties

### C01 SO3 exponential always yields a rotation

*Modelled:* SO3.v: SO3::exp with both branches  
*Proved by:* entries of R^T R - I by ring from sin^2+cos^2=1; polynomial bound on the Taylor branch (SO3Exp.v)  
*Theorems:* `C01_so3_exp_is_rotation`  
*Note:* exact for w=0 or |w|>=1e-5; every w within 1e-30

### C02 SO3 exponential is the matrix exponential (one-parameter subgroup)

*Modelled:* SO3.v: SO3::exp  
*Proved by:* stdlib derivative of each entry, angle addition; uniqueness of the solution of R'=hat(w)R by differentiating the squared difference of two solutions (SO3ExpTrue.v)  
*Theorems:* `C02_so3_exp_is_matrix_exponential`, `C02_matrix_exponential_unique`, `C02_one_parameter_subgroup`  
*Note:* exact outside the Taylor window, within 1e-26 for every w; uniqueness of the matrix exponential proved too

### C03 SO3: ln(exp(w)) = w up to angle pi

*Modelled:* SO3.v: SO3::ln with its three branches, acos outside [-1,1] = NaN  
*Proved by:* trace and skew part of Rodrigues; Taylor bounds for the windows (SO3Ln.v, SO3Near.v, TrigBounds.v)  
*Theorems:* `C03_ln_of_exp`, `C03_ln_of_exp_zero`, `C03_ln_of_exp_small`, `C03_ln_of_exp_near_pi`, `C03_ln_of_exp_near_pi_diag`, `C03_ln_of_exp_refuted`  
*Note:* exact characterisation on [1e-5, pi-6e-8]; the property for every axis is refuted (C03_ln_of_exp_refuted): zero is returned for axes (1,+-1,0) from 90 degrees on; bounds inside both approximation windows

### C04 SO3: exp(ln(R)) = R for every rotation

*Modelled:* SO3.v: SO3::ln, exp  
*Proved by:* every rotation has an axis and an angle (proved in SO3Ln.v), then C03  
*Theorems:* `C04_exp_of_ln`, `C04_exp_of_ln_small`, `C04_exp_of_ln_near_pi`, `C04_exp_of_ln_refuted`  
*Note:* holds except on the failing set, which is exhibited (C04_exp_of_ln_refuted); in the window (pi-6e-8,pi) within 3e-7, not stated for axes with |x| = |y| and 0 < |z| < 1e-4 there

### C05 SO3 operations form the rotation group

*Modelled:* SO3.v, SO3Ops.v: operator*, mul, inv, update_lhs/rhs and lists of such calls  
*Proved by:* matrix algebra; induction over the list of calls  
*Theorems:* `C05_so3_group`, `C05_any_exact_sequence`, `C05_any_sequence_drift`, `C05_adjoint`  
*Note:* exact for exact increments; drift bound for arbitrary increments and any number of calls

### C06 hat/vee are mutually inverse and hat3 is the cross product

*Modelled:* SO3.v, SE3.v: hat3, vee3, hat6, vee6  
*Proved by:* componentwise ring  
*Theorems:* `C06_hat6_vee6`, `C06_hat3_vee3`  
*Note:* -

### C07 isSO3 accepts exactly the rotations (up to tolerance)

*Modelled:* SO3.v: isSO3  
*Proved by:* determinant algebra; witness matrix  
*Theorems:* `C07_isSO3_accepts_rotations`, `C07_isSO3_rejects_improper`, `C07_isSO3_refuted`  
*Note:* exact acceptance condition (determinant only); soundness refuted

### C08 Quaternion conversions

*Modelled:* SO3.v: quat_to_so3, so3_to_quat (Eigen's four branches)  
*Proved by:* polynomial identities, case analysis on the largest diagonal entry  
*Theorems:* `C08_quaternions`, `C08_roundtrip_rotation`, `C08_roundtrip_quaternion`, `C08_quaternion_product`  
*Note:* -

### C09 Roll-pitch-yaw conversion

*Modelled:* SO3.v: rpy_to_so3  
*Proved by:* half-angle identities  
*Theorems:* `C09_rpy`, `C09_rpy_periodic`  
*Note:* -

### C10 SO3 distance is a metric-like angle

*Modelled:* SO3.v: SO3::distance  
*Proved by:* trace symmetry, C03, C04; angle of a product of unit quaternions (SO3Tri.v)  
*Theorems:* `C10_so3_distance`, `C10_distance_is_relative_angle`, `C10_distance_zero`, `C10_distance_zero_refuted`, `C10_distance_bounds`, `C10_triangle`, `C10_triangle_refuted`  
*Note:* all but definiteness; definiteness refuted, and the only possible violations located (C10_distance_zero)

### C11 SE3 operations form the rigid-motion group

*Modelled:* SE3.v, SE3Ops.v  
*Proved by:* block algebra, induction over calls  
*Theorems:* `C11_se3_group`, `C11_any_exact_sequence`, `C11_any_sequence_drift`, `C11_update_sides`  
*Note:* exact for exact increments; drift bound for arbitrary increments and any number of calls

### C12 SE3 transform is a rigid group action

*Modelled:* SE3.v: transform, transform_array, inv, operator*  
*Proved by:* block algebra, induction over rows  
*Theorems:* `C12_transform_action`, `C12_transform_array`  
*Note:* -

### C13 SE3 exponential

*Modelled:* SE3.v: SE3::exp  
*Proved by:* V(w) as the integral of exp: derivative of every entry (SE3Exp.v)  
*Theorems:* `C13_se3_exp_rigid`, `C13_se3_exp_is_matrix_exponential`, `C13_matrix_exponential_unique`  
*Note:* exact for w=0 or |w|>1e-3, bounds for every xi; uniqueness of the exponential proved

### C14 SE3: ln and exp are mutually inverse

*Modelled:* SE3.v: SE3::ln  
*Proved by:* V V^-1 = I by trigonometric identities, C03/C04  
*Theorems:* `C14_ln_of_exp`, `C14_ln_of_exp_zero`, `C14_ln_of_exp_small`, `C14_exp_of_ln`, `C14_exp_of_ln_small`, `C14_ln_of_exp_near_pi`, `C14_exp_of_ln_near_pi`, `C14_ln_of_exp_refuted`  
*Note:* exact ranges, bounds for small angles, the failing axes characterised and refuted; in the window (pi-6e-8,pi) bounds for all axes but those with |x| = |y| and |z| < 1e-4

### C15 SE3 adjoint

*Modelled:* SE3.v: adj  
*Proved by:* block algebra; conjugation of Rodrigues by a rotation  
*Theorems:* `C15_adjoint`, `C15_adjoint_exp`, `C15_adjoint_exp_all`  
*Note:* -

### C16 isSE3 accepts exactly the rigid transforms

*Modelled:* SE3.v: isSE3  
*Proved by:* determinant algebra; witnesses  
*Theorems:* `C16_isSE3_accepts_rigid`, `C16_isSE3_exact_test`, `C16_isSE3_refuted`  
*Note:* completeness and the exact acceptance condition; soundness refuted

### C17 regenerate keeps the pose

*Modelled:* SE3.v: regenerate  
*Proved by:* C14  
*Theorems:* `C17_regenerate`, `C17_regenerate_small`, `C17_regenerate_refuted`  
*Note:* on the exact range and, with bounds, for small angles; refuted on the failing axes

### C18 SE3 distances

*Modelled:* SE3.v: distance, distance_rotation, distance_trans  
*Proved by:* C10, C14, norm triangle inequality  
*Theorems:* `C18_distances`, `C18_rotation_triangle`, `C18_distance_symmetric`, `C18_distance_zero`, `C18_distance_zero_refuted`  
*Note:* definiteness of distance refuted, with the only possible violations located

### C19 curly_wedge is the Lie bracket

*Modelled:* SE3Cov.v: curly_wedge  
*Proved by:* ring on 6x6 blocks  
*Theorems:* `C19_curly_wedge_bracket`, `C19_adjoint_automorphism`  
*Note:* plus: Adj is an automorphism of the bracket

### C20 Second-order covariance compounding preserves covariances

*Modelled:* SE3Cov.v: compound_2nd_order  
*Proved by:* adjoint algebra; induction over bracketing trees  
*Theorems:* `C20_compound_2nd_order`, `C20_chain_any_grouping`  
*Note:* any bracketing tree of any size

### C21 Fourth-order covariance compounding equals the fourth-order moments

*Modelled:* SE3Cov.v: compound_4th_order  
*Proved by:* expansion of the moments over the basis (SE3Cov4.v)  
*Theorems:* `C21_fourth_order_exact_difference`, `C21_fourth_order_moments`, `C21_fourth_order_symmetric`, `C21_fourth_order_certain`, `C21_fourth_order_moments_refuted`, `C21_fourth_order_psd_refuted`  
*Note:* exact difference between the code and the fourth-order moments for all symmetric covariances; equality when the first cross block is symmetric; equality in general and positive semidefiniteness refuted

### C22 wrap_angle normalises any angle

*Modelled:* Angle.v: wrap_angle over R, loop with fuel  
*Proved by:* measure argument; uniqueness of the representative  
*Theorems:* `C22_wrap_angle`  
*Note:* loops modelled with fuel; termination, range, congruence, uniqueness

### C23 wrap_angle terminates on every double

*Modelled:* Angle.v/Angle64.v: wrap_angle over Flocq binary64  
*Proved by:* exactness of the subtraction below 2^56, absorption above  
*Theorems:* `C23_wrap_angle_double_terminates_iff`, `C23_wrap_angle_double_range`, `C23_wrap_angle_double_terminates_refuted`  
*Note:* Flocq binary64; exact termination condition; termination on every finite double refuted

### C24 Node updates preserve node invariants

*Modelled:* Nodes.v: all node classes, lists of operations  
*Proved by:* invariant over operation lists  
*Theorems:* `C24_kind_kept`, `C24_pose2d_angle`, `C24_pose2d_update`, `C24_plane_unit`, `C24_plane_update`, `C24_plane_set_state_refuted`, `C24_pose3d_update_rigid`, `C24_pose3d_update`, `C24_pose3d_update_refuted`, `C24_auxiliary_kept`, `C24_update_from_auxiliary`, `C24_increments`  
*Note:* any sequence of node operations; plane set_state and 3D update on bad axes refuted

### C25 Bookkeeping and restoring a node state is lossless

*Modelled:* Nodes.v: auxiliary state  
*Proved by:* case analysis per class  
*Theorems:* `C25_bookkeep_restore`, `C25_bookkeep_restore_refuted`  
*Note:* any state-only operations between bookkeeping and restoring; exactness refuted for unwrapped 2D angles

### C26 Robust weights

*Modelled:* Robust.v: evaluate_robust_weight  
*Proved by:* real analysis; derivative of the influence function  
*Theorems:* `C26_robust_weights`, `C26_ransac_refuted`  
*Note:* weights shown to be derivatives of the documented influence functions; RANSAC refuted

### C27 Node and factor identifiers are dense positions

*Modelled:* Graph.v: heap of nodes and factors, FGraph containers  
*Proved by:* invariant over programs  
*Theorems:* `C27_ids`, `C27_last_id`, `C27_returned_id`, `C27_returned_factor_id`  
*Note:* any API program; ids of re-added nodes characterised as well

### C28 State and observation dimensions

*Modelled:* Graph.v  
*Proved by:* invariant over programs  
*Theorems:* `C28_dimensions`, `C28_eigen_counted_refuted`  
*Note:* any API program; eigen factors counted in the observation dimension (refuted)

### C29 Factor/node adjacency is consistent

*Modelled:* Graph.v: neighbour lists as multisets  
*Proved by:* invariant over programs including rm_factor  
*Theorems:* `C29_adjacency`, `C29_adjacency_fresh`  
*Note:* exact multiplicity for any API program including removals

### C30 Adding a node twice does not duplicate it

*Modelled:* Graph.v: add_node, add_factor  
*Proved by:* invariant; witness  
*Theorems:* `C30_readd_node`, `C30_no_duplicates_refuted`  
*Note:* code always appends: general behaviour proved and the documented promise refuted

### C31 Removing a factor from a node

*Modelled:* Graph.v: rm_factor, erase(end()) = None  
*Proved by:* list lemma; witness  
*Theorems:* `C31_rm_factor`, `C31_rm_absent_refuted`  
*Note:* removal of an absent factor is undefined behaviour (refuted)

### C32 The sparse Jacobian has every block in its place

*Modelled:* Solve.v: build_adjacency with reserve and sparse insert  
*Proved by:* index arithmetic (SolveIndex.v), well-formedness along programs (Session.v)  
*Theorems:* `C32_placement`, `C32_programs`, `C32_repeated_node_refuted`, `C32_eigen_factor_refuted`, `C32_unanchored_refuted`  
*Note:* exact set of sparse entries for every well-formed graph, well-formedness proved for clean programs; three ways to undefined behaviour refuted

### C33 Normal equations are the sum over factors

*Modelled:* Solve.v: build_info_adjacency  
*Proved by:* sums over sparse entries (SolveSums.v)  
*Theorems:* `C33_normal_equations`, `C33_weights`, `C33_nonsymmetric_refuted`  
*Note:* symmetric information matrices; the non-symmetric case is refuted

### C34 A Gauss-Newton step minimises the linearised cost

*Modelled:* Solve.v: optimize_gauss_newton  
*Proved by:* completing the square  
*Theorems:* `C34_gauss_newton`, `C34_damping`  
*Note:* exactness of the linear solve is a hypothesis on its output; damping proved as L + lambda I

### C35 Anchored nodes never move

*Modelled:* Solve.v: update_nodes, solve  
*Proved by:* frame lemmas (SolveFrame.v)  
*Theorems:* `C35_anchors`, `C35_only_active`, `C35_programs`, `C35_late_anchor_refuted`  
*Note:* well-formed graphs, arbitrary linear solver; anchoring a node after adding it refuted

### C36 Levenberg-Marquardt never increases chi2

*Modelled:* Solve.v: optimize_levenberg_marquardt  
*Proved by:* invariant of the loop; restore lemma of C25  
*Theorems:* `C36_lm_never_worse`, `C36_one_pass`, `C36_trial`, `C36_nan_refuted`  
*Note:* needs wrapped or wrap-blind residuals for rejected steps; NaN chi2 refuted on the comparison

### C37 Levenberg-Marquardt terminates within the iteration limit

*Modelled:* Solve.v: optimize_levenberg_marquardt  
*Proved by:* induction over the iterations left  
*Theorems:* `C37_iterations`, `C37_total`, `C37_zero_iterations_refuted`  
*Note:* exact iteration counts; maxIters = 0 refuted

### C38 The lambda argument of solve matters

*Modelled:* Solve.v: solve  
*Proved by:* equality of the two runs  
*Theorems:* `C38_lambda_ignored`  
*Note:* the negation is proved: solve does not depend on lambda

### C39 chi2 is the weighted sum of squares

*Modelled:* Solve.v: chi2, evaluate_*  
*Proved by:* sums over factors  
*Theorems:* `C39_chi2`, `C39_cached`, `C39_stale_after_rejection`  
*Note:* staleness after a rejected step proved as well

### C40 2D pose-pose factor: residual and Jacobian

*Modelled:* Factors.v: Factor2Poses2d  
*Proved by:* derivatives of entries along any differentiable curve of states  
*Theorems:* `C40_residual`, `C40_jacobian`, `C40_updates`  
*Note:* ids in order; includes that the updates performed by the solver are among the curves the Jacobians differentiate along

### C41 Odometry factor Jacobian

*Modelled:* Factors.v: Factor2Poses2dOdom  
*Proved by:* same; exact condition by comparing with the true derivative  
*Theorems:* `C41_residual`, `C41_jacobian_iff`, `C41_jacobian_refuted`  
*Note:* correctness of the Jacobian characterised exactly; refuted at zero residual

### C42 Factor meaning does not depend on node numbering (2D)

*Modelled:* Factors.v: reversed constructor  
*Proved by:* exact solution set of the reversed residual; witness  
*Theorems:* `C42_reversed_iff`, `C42_odom_reversed_iff`, `C42_numbering_refuted`  
*Note:* both reversed cases characterised exactly; refuted

### C43 Factor meaning does not depend on node numbering (3D)

*Modelled:* Factors.v: Factor2Poses3d reversed constructor  
*Proved by:* zero set of ln (C48); witness  
*Theorems:* `C43_in_order`, `C43_reversed`, `C43_reversed_translation_iff`, `C43_numbering_refuted`  
*Note:* reversed case characterised; refuted

### C44 updateNodeTarget initialises the target consistently

*Modelled:* Factors.v: updateNodeTarget  
*Proved by:* evaluation of the residual after the constructor  
*Theorems:* `C44_poses2d_iff`, `C44_poses2d_refuted`, `C44_odom`, `C44_poses3d`, `C44_reversed_refuted`  
*Note:* 2D characterised exactly; refuted for 2D poses and for reversed 3D poses

### C45 2D landmark factor

*Modelled:* Factors.v: Factor1Pose1Landmark2d; atan2 over R  
*Proved by:* atan2 derivative; witness for the guard  
*Theorems:* `C45_residual`, `C45_jacobian`, `C45_initialise`, `C45_close_refuted`  
*Note:* 1 mm guard refuted

### C46 3D landmark factor

*Modelled:* Factors.v: Factor1Pose1Landmark3d  
*Proved by:* derivative along the left update  
*Theorems:* `C46_residual`, `C46_jacobian`, `C46_no_initialisation`, `C46_initialise_refuted`  
*Note:* initializeLandmark refuted

### C47 Plane factor

*Modelled:* Factors.v: Factor1Pose1Plane4d  
*Proved by:* derivative along curves; witness  
*Theorems:* `C47_residual`, `C47_same_plane`, `C47_jacobian`, `C47_update_refuted`  
*Note:* Jacobian along the normalised update refuted

### C48 3D pose factors

*Modelled:* Factors.v: Factor1Pose3d, Factor2Poses3d  
*Proved by:* derivative of ln at the identity (Factors3DLn.v)  
*Theorems:* `C48_prior_residual`, `C48_relative_residual`, `C48_half_turn_refuted`, `C48_prior_jacobian`, `C48_relative_jacobian`, `C48_prior_jacobian_iff`, `C48_relative_jacobian_iff`, `C48_jacobian_refuted`  
*Note:* zero set of the residual up to the two failing half-turn axes; Jacobian off zero residual refuted

### C49 2D pose prior

*Modelled:* Factors.v: Factor1Pose2d  
*Proved by:* C22  
*Theorems:* `C49_residual`, `C49_jacobian`  
*Note:* -

### C50 Point-to-plane factor

*Modelled:* Factors.v: Factor1PosePoint2Plane  
*Proved by:* projection onto the plane; derivative  
*Theorems:* `C50_residual`, `C50_distance`, `C50_jacobian`  
*Note:* -

### C51 Dense solver gradient

*Modelled:* Dense.v: calculate_gradient_hessian  
*Proved by:* sums over factors and nodes; witness  
*Theorems:* `C51_gradient_hessian`, `C51_one_node_gradient`, `C51_robust_ignored`, `C51_gradient_refuted`, `C51_optimum_refuted`  
*Note:* what is computed, plus refutations of the gradient claim and of the fixed point at the optimum

### C52 Dense solver with anchors

*Modelled:* Dense.v: block offsets, out of range = None  
*Proved by:* bounds over programs; every anchored graph fails  
*Theorems:* `C52_in_bounds`, `C52_programs`, `C52_anchor_refuted`  
*Note:* bounds without anchors for every solve; with an anchor every solve is out of range

### C53 Optimizer Levenberg-Marquardt never ends worse than it started

*Modelled:* Optimizer.v: optimize_levenberg_marquardt, errors option R (None = NaN)  
*Proved by:* loop invariant; witness  
*Theorems:* `C53_lm_never_worse`, `C53_dense`, `C53_nan_refuted`  
*Note:* NaN case refuted by witness

### C54 Optimizer iteration bounds

*Modelled:* Optimizer.v  
*Proved by:* induction over iterations  
*Theorems:* `C54_newton_raphson`, `C54_levenberg_marquardt`, `C54_lm_pass`, `C54_step`, `C54_total`, `C54_zero_iterations_refuted`  
*Note:* inverse of the Hessian arbitrary, exact where stated

### C55 Arun returns the least-squares rigid transform

*Modelled:* Registration.v: arun with the SVD as oracle  
*Proved by:* von Neumann trace argument for rotations (ArunProofs.v); SVD existence in Spectral.v  
*Theorems:* `C55_least_squares`, `C55_unchanged`, `C55_total`, `C55_exact_recovery`, `C55_svd_independent`, `C55_svd_exists`  
*Note:* exactness of the SVD of this call's matrix is a hypothesis; existence of an exact SVD is proved

### C56 Arun rejects only degenerate inputs

*Modelled:* Registration.v: arun, Python wrapper  
*Proved by:* rank argument; witnesses  
*Theorems:* `C56_degenerate_rejected`, `C56_gaps`, `C56_symmetric_refuted`, `C56_small_rejected`, `C56_small_refuted`, `C56_python_refuted`, `C56_python`  
*Note:* degenerate inputs are rejected; symmetric and small clouds refute the converse; the Python call hides the failure (refuted)

### C57 GICP and weighted point registration

*Modelled:* Registration.v: gicp, weight_point, inverse as oracle  
*Proved by:* loop invariants; derivative of the weighted error (RegistrationMore.v); witness  
*Theorems:* `C57_iterations`, `C57_defined`, `C57_rigid`, `C57_aligned_gicp`, `C57_aligned_weighted`, `C57_weighted_steps`, `C57_gicp_steps`, `C57_linearisation`, `C57_descent`, `C57_stationary`, `C57_gicp_refuted`  
*Note:* exact inverses are hypotheses where stated; gicp minimality refuted by a witness

### C58 Plane estimation

*Modelled:* Registration.v: estimate_plane, estimate_normal, estimate_centroid  
*Proved by:* Rayleigh quotient; existence in Spectral.v  
*Theorems:* `C58_plane`, `C58_unique`, `C58_exact`, `C58_normal`, `C58_centroid`, `C58_eigen_exists`  
*Note:* exactness of the eigen solver on this call's matrix is a hypothesis; existence is proved

### C59 Plane point accounting

*Modelled:* Planes.v: class Plane  
*Proved by:* invariant over programs  
*Theorems:* `C59_counts`, `C59_total`, `C59_defined`, `C59_mean`, `C59_mean_fresh`, `C59_mean_stale_refuted`, `C59_clear_unusable`  
*Note:* programs without clear_points; stale means and clear_points are shown as defects

### C60 Plane error is the least squares value over the points in use

*Modelled:* Planes.v: estimate_plane, calculate_all_matrices_S/Q  
*Proved by:* Rayleigh quotient in dimension 4  
*Theorems:* `C60_least`, `C60_eigen_exists`, `C60_short_trajectory`, `C60_fresh`, `C60_stale`, `C60_below_distances`, `C60_coplanar`, `C60_all_points_refuted`, `C60_frame_refuted`  
*Note:* exactness of the eigen solver on this call's matrix is a hypothesis, existence proved; use of all points and frame independence refuted

### C61 Plane gradient and Hessian are derivatives of the error

*Modelled:* Planes.v: calculate_gradient, calculate_hessian  
*Proved by:* envelope argument for a simple smallest eigenvalue (PlanesEigen.v, PlanesHess.v)  
*Theorems:* `C61_fixed_plane`, `C61_estimated_plane`, `C61_defined`, `C61_hessian_translation`, `C61_hessian_axis`, `C61_hessian_refuted`  
*Note:* the estimated-plane derivative assumes an exact eigen solver and a simple smallest eigenvalue; Hessian for rotations refuted, excess characterised

### C62 Synthetic plane scans are consistent with their ground truth

*Modelled:* CreatePoints.v: constructor and create_plane_registration; binary32 index  
*Proved by:* Flocq error bounds; counting; C69 path  
*Theorems:* `C62_index_range`, `C62_index_exact`, `C62_index_refuted`, `C62_scene`, `C62_counts`, `C62_truth`, `C62_on_planes`, `C62_registration`  
*Note:* Random engines are arbitrary draws. C62_index_refuted is the witness for 8486572 points and 2051 planes (out-of-range read). C62_on_planes and C62_registration assume the rotation between consecutive poses is zero or at least 1e-5 (otherwise the Taylor branch of exp makes poses rigid only up to 1e-30).

### C63 Profiling totals

*Modelled:* Profiling.v: TimeProfiling, clock readings as arguments  
*Proved by:* induction over the events  
*Theorems:* `C63_total`, `C63_within_elapsed`, `C63_precision`, `C63_overlap_refuted`, `C63_no_start`, `C63_shares`  
*Note:* Clock readings are arguments; doubles are modelled as integers (exact below 2^53 microseconds). C63_overlap_refuted shows consecutive stops overlap.

### C64 Destroying a graph leaves no reference cycle

*Modelled:* Graph.v: destructor as removal of references  
*Proved by:* reachability in the heap; witness  
*Theorems:* `C64_destructor_cycles`, `C64_leak_refuted`  
*Note:* leak characterised exactly; absence of leaks refuted

### C65 Sessions that follow the documented rules never reach undefined behaviour

*Modelled:* Session.v: programs of C++ and Python calls  
*Proved by:* well-formedness invariant  
*Theorems:* `C65_python_sessions`, `C65_equal_ids_refuted`  
*Note:* fclass abstracts the factor classes; equal ids refuted

### C66 Python sessions with matching node kinds

*Modelled:* Session.v, Factors.v: FGraphPy with the real factor classes  
*Proved by:* invariant over programs, C36, C39  
*Theorems:* `C66_sessions`, `C66_lm_never_worse`  
*Note:* linear solver and robust option arbitrary

### C67 Incremental plane errors agree with full evaluations

*Modelled:* Planes.v: estimate_plane_incrementally, get_error_incremental  
*Proved by:* invariant on accumulated Q  
*Theorems:* `C67_incremental`, `C67_defined`, `C67_get_error_kept`, `C67_repeat_refuted`  
*Note:* distinct times; a repeated time is refuted

### C68 Plane registration accounting and error

*Modelled:* Planes.v: class PlaneRegistration  
*Proved by:* history of a program (SpecPlaneReg.v) and invariant  
*Theorems:* `C68_defined`, `C68_accounting`, `C68_error`, `C68_total_unique`, `C68_points_in_use`  
*Note:* exactness of the eigen solver is a hypothesis where the value of the error is stated; planes passed to add_plane were not cleared

### C69 Plane registration trajectories

*Modelled:* Planes.v: trajectory methods  
*Proved by:* invariant over programs  
*Theorems:* `C69_trajectory`, `C69_set_last_pose`, `C69_one_pose_refuted`, `C69_constant_velocity`, `C69_reset`  
*Note:* set_last_pose with one pose refuted; the path statement needs ln(exp(ln T)) = ln T for poses set by the user

### C70 Plane registration by Levenberg-Marquardt does not increase the error

*Modelled:* Planes.v: PlaneRegistration as a problem of Optimizer.v  
*Proved by:* C53 with the restore lemma on paths; witness  
*Theorems:* `C70_not_worse`, `C70_ends_on_path`, `C70_off_path_refuted`  
*Note:* start on a constant-velocity path; refuted off it

### C71 INITIALIZE aligns plane centres with the first scan

*Modelled:* Planes.v: solve_initialize  
*Proved by:* C55 applied per time; witnesses (PlaneRegBox.v, PlaneRegMis.v)  
*Theorems:* `C71_alignment`, `C71_exact`, `C71_late_plane_throws`, `C71_mispaired_refuted`  
*Note:* exact SVD (existence proved); planes missing from the first scan: out of range, or wrong pairs (refuted)

### C72 Plane registration modes and return value

*Modelled:* Planes.v: solve, all modes  
*Proved by:* case analysis per mode  
*Theorems:* `C72_codes`, `C72_no_ops`, `C72_single_ignored`, `C72_second_order`, `C72_keeps`  
*Note:* definedness of the two gradient modes is not claimed

### C73 Gradient and Hessian handed to the plane registration optimizer

*Modelled:* Planes.v: gradient and Hessian over the poses, update_state_from_solution  
*Proved by:* derivative of the least eigenvalue along the moved trajectory (PlaneRegGrad.v, PlaneRegHess.v); witnesses  
*Theorems:* `C73_defined`, `C73_gradient`, `C73_two_poses`, `C73_three_poses_refuted`, `C73_hessian_two_poses`, `C73_hessian_refuted`  
*Note:* The two- and three-pose statements are about the update the optimizer applies; C73_gradient describes the curve whose derivative the code computes for any number of poses. The eigen solver is assumed exact.

### C74 Pose error of a plane registration against ground truth

*Modelled:* Planes.v: calculate_poses_rmse  
*Proved by:* induction over the ground truth; C18  
*Theorems:* `C74_defined`, `C74_mean_square`, `C74_zero`, `C74_common_motion`, `C74_short_refuted`, `C74_zero_refuted`  
*Note:* The assert on the length is off in the default (Release) build.

### C75 What a Python session reads back from a graph

*Modelled:* Solve.v: get_estimated_state, get_chi2_array, solve; Session.v  
*Proved by:* the invariant of sessions (C65) and the frame lemmas of each call  
*Theorems:* `C75_add_node`, `C75_add_factor`, `C75_chi2_solve`, `C75_cached`, `C75_chi2_after_solve_refuted`  
*Note:* The values that solve computes are the subject of C33-C37.

### C76 Sparse and dense solver compared

*Modelled:* Solve.v: optimize_gauss_newton; Dense.v, Optimizer.v: one_iteration  
*Proved by:* equality of the bilinear forms of C33 and C51; a symmetric matrix with a right inverse is injective  
*Theorems:* `C76_step`, `C76_one_node_factors`, `C76_same_step_refuted`  
*Note:* The Gauss-Newton system and the inverse are assumed to be solved exactly.

### C77 Registrations filled from one CreatePoints

*Modelled:* SharedPlanes.v: fill_reg, call_on, shared_run; Planes.v  
*Proved by:* the planes a method leaves differ only in caches, which estimate_plane refreshes (SharedPlanesProofs.v); induction over the events; a scene seen from two heights  
*Theorems:* `C77_newest`, `C77_alone`, `C77_older_error`, `C77_older_error_fixed`, `C77_older_one_iteration`, `C77_independent_refuted`  
*Note:* C77_independent_refuted is the negation of independence. The theorems about earlier registrations need no assumption on the eigen solver.

### C78 What print_evaluate reports about a plane registration

*Modelled:* Evaluate.v: print_evaluate, hessian_left, eval_run; Planes.v, Optimizer.v  
*Proved by:* which members each method writes (EvaluateProofs.v); the matrix the optimizer leaves is a damped Hessian of a state of the run; C68  
*Theorems:* `C78_defined`, `C78_report`, `C78_last_solve`, `C78_never_solved`, `C78_eigenvalues`, `C78_eigenvalues_gradient`, `C78_eigenvalues_stale`, `C78_planes_refuted`, `C78_range_refuted`, `C78_initial_error_refuted`  
*Note:* C78_planes_refuted, C78_range_refuted and C78_initial_error_refuted show what a user would expect and does not get. The eigenvalue routine is any function.

### C79 Planar problems in two coordinate frames

*Modelled:* Factors.v: planar factors; Solve.v: solve; Session.v  
*Proved by:* residuals are equal or turned, Jacobians turn (FrameFactors.v); the normal equations of the two worlds are congruent by the turn, so exact solutions correspond (FrameSolve.v); induction over LM steps and calls (FrameSession.v)  
*Theorems:* `C79_sessions`, `C79_costs`, `C79_exact_solver`, `C79_initialise_refuted`, `C79_odometry_refuted`, `C79_close_refuted`  
*Note:* C79_initialise_refuted, C79_odometry_refuted and C79_close_refuted are the three things that fail. The linear solver is any exact one; C79_exact_solver shows that there is one (Gaussian elimination).

### C80 Which graphs determine their solution

*Modelled:* Factors.v: evaluate_jacobians of all classes; Solve.v: build_problem, solve; Session.v  
*Proved by:* a vector in the kernel is unseen by every factor with positive information (SolvableFactors.v); induction over held; 3D poses stay invertible along sessions (SolvableSession.v); rigid motions are unseen (FloatSession.v)  
*Theorems:* `C80_held`, `C80_posed`, `C80_floating`, `C80_isolated`, `C80_one_landmark`, `C80_centre`  
*Note:* Held is sufficient, not necessary: a pose that sees two anchored landmarks is determined too. Floating sets are planar; C80_centre is about sets without landmark observations, since these see shifts when closer than 1e-3.

### C81 Mapping from known poses

*Modelled:* Factors.v: c_landmark3d; Nodes.v: val_update; Solve.v: solve; Session.v  
*Proved by:* the residual is affine in the landmark, so the linearised cost is the cost (MappingSession.mapping_cost); completing the square with C80 for uniqueness; variation along a line for the mean  
*Theorems:* `C81_best`, `C81_start`, `C81_again`, `C81_mean`  
*Note:* For the quadratic cost (the default of FGraph) and a linear solver that solves nonsingular systems exactly. The poses have invertible linear parts; the mean needs rigid poses.

### C82 3D sessions in another coordinate frame

*Modelled:* Factors.v: c_pose3d, c_2poses3d, c_landmark3d, c_plane4d, c_point2plane; SE3.v; Session.v  
*Proved by:* residuals of the moved nodes are the adjoint images of the residuals (Frame3Factors, with C14/C15), sessions stay aligned call by call (Frame3Session); maps by uniqueness of the best map (C81) and equality of cost differences (Frame3Map.excess)  
*Theorems:* `C82_costs`, `C82_origin_refuted`, `C82_quarter_turn_refuted`, `C82_other_frame`, `C82_map`  
*Note:* Costs: for errors below a quarter turn and, when the origins differ, rotation errors that are zero or above 0.005 (the series of the code are cut off below). Maps: Gauss-Newton with the quadratic cost and an exact linear solver. Solving with free 3D poses is not covered: every pose update passes through exp(ln(.)), which is exact only up to the truncation. The two dependences on the frame are refutations of the unconditional statement.

### C83 Mapping by Levenberg-Marquardt

*Modelled:* Solve.v: lm_iter, lm_loop, lambda_update, optimize_levenberg_marquardt; Factors.v: c_landmark3d; Session.v  
*Proved by:* chi2 is exactly quadratic (C81), the damped step is compared with the undamped one (LMMapping.damped_numbers), the normal matrix is bounded below by mu (LMMapping.form_below_mu), then induction over the passes (LMMapping.one_more, passes)  
*Theorems:* `C83_excess`, `C83_distance`, `C83_passes`  
*Note:* For the quadratic cost and an exact linear solver. The bound is for any mu > 0 and says something when c < 1, i.e. mu > 1/400000.

### C84 The order in which a graph is built does not matter

*Modelled:* Solve.v: build_adjacency, solve, lm_loop; Factors.v: the classes and pycall_op; Session.v  
*Proved by:* the normal equations are written by node id (Reorder.facts_form, facts_rhs), so both sessions have the same equation and its solution is unique (ReorderSolve.steps_rel); one pass of the loop leads to related states, the same exit and the same lambda (lm_iter_like), then induction over the loop  
*Theorems:* `C84_order`, `C84_shares`, `C84_shares_robust_refuted`  
*Note:* For an exact linear solver, in real arithmetic. C84_shares_robust_refuted: with CAUCHY a prior entered in two shares moves the pose to x = -1/3 instead of -1/5.

### C85 Solved graphs stay solved

*Modelled:* Solve.v: build_problem, solve, lm_loop; Nodes.v: val_update; SE3.v: se3_regenerate; Session.v  
*Proved by:* balance says that the right-hand side of the normal equations is zero (Fixed.quiet_rhs); the unique solution is zero and a zero update keeps settled states (update_settled); induction over the Levenberg-Marquardt loop (rest_loop); the converse realises every direction by a vector of the solver (dir_vector)  
*Theorems:* `C85_balanced`, `C85_consistent`, `C85_fixed`, `C85_unsettled_refuted`  
*Note:* For an exact linear solver, in real arithmetic. The rotation condition is the one of C17. C85_unsettled_refuted: the half turn about (1,1,0).

### C86 Planar pose graphs without loops are solved in two steps

*Modelled:* Factors.v: c_pose2d, c_2poses2d, c_odom; Solve.v: solve; Nodes.v: val_update; Session.v  
*Proved by:* induction along the tree gives velocities that meet all linearised measurements (Tree.tree_dir); they solve the normal equations, whose solution is unique (lin_step); the heading residuals are linear, and without heading motion the position residuals are too (stepped_rel, stepped_odom, stepped_prior); C85 for what follows  
*Theorems:* `C86_headings`, `C86_tree`, `C86_one_step_refuted`  
*Note:* For an exact linear solver, in real arithmetic. C86_one_step_refuted: a pose that faces an anchor the wrong way has chi2 ((pi/2-1)^2+1)/2 after one step.

### C87 Parts of a graph that share only anchors do not influence each other

*Modelled:* Factors.v: all factor classes; Solve.v: solve, lm_iter; Session.v  
*Proved by:* the normal equations of the whole graph, tested with vectors that are zero outside the part, are those of the part (Parts.part_sums, part_extend, part_restrict), whose solution is unique; the failure by an invariant of the rejected iterations (PropParts.blocked_iter)  
*Theorems:* `C87_parts`, `C87_lm_refuted`  
*Note:* For an exact linear solver, in real arithmetic. C87_lm_refuted: Levenberg-Marquardt on two unconnected parts changes nothing, for every number of iterations, while one of the parts alone is improved.

### C88 What informations mean to the solver

*Modelled:* Factors.v: all factor classes; Robust.v: robust_eval; Solve.v: solve, lm_iter; Session.v  
*Proved by:* measurements without information add nothing to the sums of C84 (Infos.ignored_costs); the normal equations of the scaled graph are multiples of the old ones (scaled_form, scaled_rhs) and have the same unique solution (scaled_solved)  
*Theorems:* `C88_ignored`, `C88_scale`, `C88_scale_robust_refuted`, `C88_scale_lm_refuted`  
*Note:* For an exact linear solver, in real arithmetic. C88_scale_robust_refuted: Cauchy, two priors, steps -1/5 and -1/7 after doubling all informations. C88_scale_lm_refuted: one prior, one iteration.

### C89 What solving with a robust function minimises

*Modelled:* Robust.v: robust_eval; Factors.v: all factor classes; Solve.v: solve, lm_iter; Session.v  
*Proved by:* the weight is the derivative of the loss (RobustCost.loss_rate); hence the right-hand side of the normal equations is the gradient of the cost (cost_rate), balanced means stationary (balanced_stationary) and the derivative along a Gauss-Newton step is minus the normal form of the step (gn_downhill); C85 does the rest  
*Theorems:* `C89_stationary`, `C89_downhill`, `C89_landmarks`, `C89_least_squares`, `C89_lm_refuted`, `C89_3d_refuted`  
*Note:* For an exact linear solver, in real arithmetic; the downhill claim is to first order (a full step may overshoot). C89_lm_refuted: Cauchy, two conflicting priors, any number of iterations. C89_3d_refuted: two priors on a 3D pose, both methods, any robust function.

### C90 Levenberg-Marquardt comes to an end

*Modelled:* Solve.v: lm_iter, lm_loop, optimize_levenberg_marquardt, solve; Nodes.v: val_update, val_set; Factors.v; Session.v  
*Proved by:* the damped step as a function of 1 / lambda is a curve with velocity minus the gradient at 0 (LMStops.vel_rate), so the trial states are a motion of the nodes and chi2 drops along it for small 1 / lambda (threshold); rejections double lambda and only wrap headings (rejections), acceptances use up chi2 (always_stops)  
*Theorems:* `C90_converges`, `C90_progress`, `C90_accepted`, `C90_tolerance`, `C90_robust_refuted`, `C90_3d_refuted`  
*Note:* For an exact linear solver, in real arithmetic (rounding could make a decrease look like an increase). C90_robust_refuted: Cauchy, two conflicting priors. C90_3d_refuted: the graph of C87_lm_refuted. Planes are not covered by C90_converges: their update is followed by a normalisation.

### C91 A pose is located by enough known landmarks and planes

*Modelled:* Factors.v: the Jacobians; Solve.v: build_adjacency, build_info_adjacency; Session.v  
*Proved by:* a zero of the normal form is unseen by every factor (SolvableSession.zero_form); for the observations of a pose that says that the increment, as a twist, keeps the landmark or plane (landmark3d_keeps, plane_keeps, point_row); induction on located. Conversely an unnoticed twist is a null vector (ambiguous_singular). Vector algebra for the three sights and for uniqueness (same_place, same_place2)  
*Theorems:* `C91_located`, `C91_localise`, `C91_landmarks`, `C91_planes`, `C91_mixed`, `C91_line`, `C91_corridor`, `C91_unique_3d`, `C91_unique_2d`  
*Note:* Extends C80. Exact singularity in real arithmetic; how close to singular a scene may be before rounding matters is not covered.

### C92 A chi2 of zero means that the map is right

*Modelled:* Factors.v: the residuals of all factors; Session.v  
*Proved by:* chi2 is a sum of nonnegative terms, so every residual with a nondegenerate information is zero (certain_zero); each factor then determines one of its nodes from the other (C40-C49, ln_read for the 3D logarithm); induction on pinned, with same_place and same_place2 for poses that see landmarks. Witnesses by computation  
*Theorems:* `C92_right`, `C92_optimum`, `C92_planes`, `C92_walls_refuted`, `C92_close_refuted`, `C92_half_turn_refuted`  
*Note:* Exact zeros in real arithmetic; how far a map with a small chi2 can be from the truth is not covered. Poses that only see planes are pinned by C92_planes, not by the induction.

### C93 What the gradient modes of the plane registration do

*Modelled:* Evaluate.v, Registration.v: all_poses_pass, nag_pass, descend, set_alpha_parameter  
*Proved by:* the trace of descend; each pass reads the gradients of C73 (slope_gradient) at the planes estimated from the current trajectory; momentum state followed through the program (members_run); downhill by the derivative at 0  
*Theorems:* `C93_all_poses_defined`, `C93_momentum_defined`, `C93_all_poses`, `C93_alpha`, `C93_downhill`, `C93_momentum`, `C93_single_refuted`, `C93_unseen_refuted`  
*Note:* The eigenvalue solver is exact. The gradient is the true one where every plane has one best fit only. set_beta_parameter is not part of the statement: beta is 0.1 as constructed.

### C94 Plane registrations in another coordinate frame

*Modelled:* Planes.v: get_current_error, estimate_plane  
*Proved by:* the history of the program commutes with the change of frame (planes_frame, used_frame); plane equations transformed with G keep their values and change their length at most by 1+|t| (length_grows), so least values compare (least_below); witness: eight points around a plane and one point seen from the second pose  
*Theorems:* `C94_bounds`, `C94_rotation`, `C94_zero`, `C94_far`, `C94_vanishes`, `C94_best_refuted`  
*Note:* The eigenvalue solver is exact. That the trajectories agree up to the frame is a hypothesis (it holds for set_last_pose with translations, see the example); what the solvers do in another frame is not covered.

### C95 Uncertainty of a chain of odometry

*Modelled:* Factors.v: jac_2poses3d; Solve.v: build_problem; SE3Cov.v: compound2  
*Proved by:* at zero residual the Jacobian is [I, -I]; the form of the information matrix with a column of the claimed covariance telescopes along the chain (chain_form); nodes stay in order (in_order), so pose k sits at 6(k-1); witness: two steps of one metre  
*Theorems:* `C95_covariance`, `C95_compound`, `C95_grows`, `C95_frame_refuted`  
*Note:* At poses that agree with the increments (where the residuals are zero); away from them the Jacobian is another one. RANSAC keeps stale weights and is left out.

### C96 What more measurements do to the uncertainty

*Modelled:* Solve.v: build_problem; Factors.v: all Jacobians; Session.v: pycalls  
*Proved by:* the form of the larger matrix is that of the smaller plus a sum of squares (grown_form), the old nodes keep their columns (grown_before); Cauchy-Schwarz for the form (inverse_shrinks); a leaf can follow every motion of its neighbour (leaf_sees), so the Schur complement is unchanged (inverse_stays); witness: a landmark seen at 1 m and at 19 m  
*Theorems:* `C96_inverse`, `C96_more`, `C96_determined`, `C96_leaf`, `C96_moved_refuted`  
*Note:* For the same states of the old nodes; without that it is false (C96_moved_refuted). RANSAC keeps stale weights and is left out.

### C97 A new branch does not change the rest of the map

*Modelled:* Solve.v: solve, build_problem; Factors.v: all Jacobians; Session.v: pycalls  
*Proved by:* moving the new nodes alone can change the new measurements in any way (branch_motion, by elimination along the branch); so a solution of the equations meets them all to first order (branch_met) and they drop out of the equations of the old nodes (branch_nonsingular)  
*Theorems:* `C97_branch`, `C97_uncertainty`, `C97_again`  
*Note:* Gauss-Newton only: the damping of Levenberg-Marquardt couples the branch to the rest. RANSAC keeps stale weights and is left out.

### C98 chi2 is on average half the degrees of freedom

*Modelled:* Solve.v: build_problem, solve; Session.v: pycalls  
*Proved by:* algebra of L = A^T W A (hat_twice, hat_trace); the least cost is r^T (W - W H) r and does not change when r moves by A d (value_shift); the second moments turn the sum over the runs into traces (weights_moment, taken_moment); for mapping the linearised cost is the cost itself (mapping_cost)  
*Theorems:* `C98_fit`, `C98_mean`, `C98_chi2`  
*Note:* The average is over finitely many runs whose second moments are exactly the inverse of the weights; no probability theory. The runs have the same A and W, so the robust types with weights that depend on the residuals are covered only where the weights agree.

### C99 Anchoring nodes never increases the uncertainty

*Modelled:* Graph.v: add_node; Solve.v: build_problem; Session.v: pycalls  
*Proved by:* the motions of the freer graph that leave the fixed nodes alone are the motions of the other (loosen_form, loosen_dot); a variance is the largest value of a concave function over the motions, so it cannot grow when there are fewer of them  
*Theorems:* `C99_determined`, `C99_fixed`  
*Note:* The anchors have the states that the nodes had: both graphs are linearised at the same states. RANSAC keeps stale weights and is left out.

### C100 One more measurement is a Kalman update

*Modelled:* Graph.v: add_factor; Solve.v: build_problem; Session.v: pycalls  
*Proved by:* the new rows are the Jacobian of the measurement (last_problem) and add its information to the normal equations; the updated covariance and solution are checked to solve these (updated, updated_cov), and the innovation covariance is invertible because they are (gate_nonsingular)  
*Theorems:* `C100_update`, `C100_quadratic`  
*Note:* Both graphs are linearised at the same states. RANSAC keeps stale weights and is left out. C100_quadratic: for the quadratic cost N is the inverse of the information as passed. The solution is that of the normal equations, which the solver subtracts from the states.

### C101 The uncertainty does not depend on the order in which the graph was built

*Modelled:* Graph.v: add_node, add_factor; Solve.v: build_problem; Session.v: pycalls  
*Proved by:* increments of the two graphs that agree on the nodes have the same normal equations and the same products (C84: rel_form, rel_dot); the covariance of two combinations is such a product (covariance_rel)  
*Theorems:* `C101_order`, `C101_shares`  
*Note:* Both graphs are linearised at the same states. Robust types and shares do not mix (C84_shares_robust_refuted). RANSAC keeps stale weights and is left out.

### C102 In the plane, the uncertainty turns with the coordinate frame

*Modelled:* Factors.v: residuals and Jacobians of the planar factors; Solve.v: build_problem, solve; Session.v: pycalls  
*Proved by:* the simulation of C79 gives equal quadratic forms of turned increments (sys_form) and turning keeps products (turn_all_dot), so the turned solution solves the turned system (equiv_solution, turned_covariance); C102_position expands the quadratic form  
*Theorems:* `C102_turned`, `C102_position`  
*Note:* The sessions are those of C79: what C79 excludes (turned initialisation from a relative pose, anisotropic landmark observations, untouched odometry informations) is excluded here too. Gauss-Newton solves are well posed.

### C103 What informations mean for the uncertainty

*Modelled:* Solve.v: build_problem; Robust.v: robust_eval; Session.v: pycalls  
*Proved by:* equal costs give equal covariances (alike of C101, ignored_costs of C88); the scaled normal equations have the inverse divided by the factor (scaled_form of C88, rel_dot of C84)  
*Theorems:* `C103_ignored`, `C103_scale`  
*Note:* Both graphs are linearised at the same states. The scaling is stated for the quadratic cost: robust functions compare residuals with a fixed threshold (C88_scale_robust_refuted).

### C104 Parts of a graph that share only anchors are uncorrelated

*Modelled:* Solve.v: build_problem; Graph.v: add_factor; Session.v: pycalls  
*Proved by:* the side of a solution that is not asked for lies in the kernel of the normal matrix (sided_form, form_kernel); the solution of a part, extended by zero, solves the whole system (part_sums of C87, part_dot)  
*Theorems:* `C104_uncorrelated`, `C104_difference`, `C104_alone`  
*Note:* A part and the whole graph are linearised at the same states. RANSAC keeps stale weights and is left out.

### C105 What repeating every measurement does

*Modelled:* Solve.v: build_problem, solve; Graph.v: add_factor; Session.v: pycalls  
*Proved by:* the sums over the repeated measurements are m times the sums over the measurements (lsum_copies, copies_form, copies_rhs); systems that differ by a factor have inverses that differ by it (scaled_covariance)  
*Theorems:* `C105_covariance`, `C105_solve`  
*Note:* The two graphs are linearised at the same states. RANSAC keeps stale weights and is left out. The statement about solve is for Gauss-Newton: Levenberg-Marquardt adds the same lambda to both matrices.

## 7. Assumptions per theorem

Letters as in section 2.

* no axiom at all (11): `C27_returned_id`, `C27_returned_factor_id`, `C31_rm_factor`, `C59_total`, `C60_fresh`, `C63_total`, `C63_within_elapsed`, `C63_precision`, `C63_overlap_refuted`, `C63_no_start`, `C68_points_in_use`
* F (3): `C12_transform_array`, `C67_get_error_kept`, `C69_reset`
* F X (59): `C05_so3_group`, `C06_hat6_vee6`, `C06_hat3_vee3`, `C07_isSO3_accepts_rotations`, `C07_isSO3_rejects_improper`, `C11_se3_group`, `C15_adjoint`, `C16_isSE3_accepts_rigid`, `C16_isSE3_exact_test`, `C16_isSE3_refuted`, `C19_curly_wedge_bracket`, `C19_adjoint_automorphism`, `C20_compound_2nd_order`, `C20_chain_any_grouping`, `C21_fourth_order_exact_difference`, `C21_fourth_order_moments`, `C21_fourth_order_symmetric`, `C21_fourth_order_certain`, `C21_fourth_order_moments_refuted`, `C21_fourth_order_psd_refuted`, `C36_nan_refuted`, `C53_lm_never_worse`, `C53_nan_refuted`, `C54_newton_raphson`, `C54_levenberg_marquardt`, `C54_lm_pass`, `C54_step`, `C54_total`, `C54_zero_iterations_refuted`, `C55_least_squares`, `C55_unchanged`, `C55_total`, `C55_exact_recovery`, `C55_svd_independent`, `C56_degenerate_rejected`, `C56_gaps`, `C56_symmetric_refuted`, `C56_small_rejected`, `C56_small_refuted`, `C56_python_refuted`, `C56_python`, `C58_normal`, `C58_centroid`, `C59_counts`, `C59_defined`, `C59_mean`, `C59_mean_fresh`, `C59_mean_stale_refuted`, `C59_clear_unusable`, `C60_least`, `C60_short_trajectory`, `C60_stale`, `C61_defined`, `C61_hessian_axis`, `C63_shares`, `C67_incremental`, `C67_defined`, `C68_total_unique`, `C79_exact_solver`
* F N X (62): `C01_so3_exp_is_rotation`, `C02_one_parameter_subgroup`, `C05_any_exact_sequence`, `C05_any_sequence_drift`, `C05_adjoint`, `C07_isSO3_refuted`, `C08_quaternions`, `C08_roundtrip_quaternion`, `C08_quaternion_product`, `C09_rpy`, `C09_rpy_periodic`, `C11_any_exact_sequence`, `C11_any_sequence_drift`, `C11_update_sides`, `C12_transform_action`, `C13_se3_exp_rigid`, `C15_adjoint_exp`, `C27_ids`, `C27_last_id`, `C28_dimensions`, `C28_eigen_counted_refuted`, `C29_adjacency`, `C29_adjacency_fresh`, `C30_readd_node`, `C30_no_duplicates_refuted`, `C31_rm_absent_refuted`, `C32_placement`, `C32_repeated_node_refuted`, `C32_eigen_factor_refuted`, `C32_unanchored_refuted`, `C33_normal_equations`, `C33_weights`, `C33_nonsymmetric_refuted`, `C34_damping`, `C39_chi2`, `C39_cached`, `C50_distance`, `C52_programs`, `C55_svd_exists`, `C57_iterations`, `C57_defined`, `C57_rigid`, `C57_aligned_gicp`, `C57_aligned_weighted`, `C57_weighted_steps`, `C57_gicp_steps`, `C57_linearisation`, `C57_descent`, `C57_stationary`, `C57_gicp_refuted`, `C58_plane`, `C58_unique`, `C58_exact`, `C58_eigen_exists`, `C60_below_distances`, `C60_coplanar`, `C61_fixed_plane`, `C61_estimated_plane`, `C61_hessian_translation`, `C61_hessian_refuted`, `C64_destructor_cycles`, `C64_leak_refuted`
* C F N X (304): `C02_so3_exp_is_matrix_exponential`, `C02_matrix_exponential_unique`, `C03_ln_of_exp`, `C03_ln_of_exp_zero`, `C03_ln_of_exp_small`, `C03_ln_of_exp_near_pi`, `C03_ln_of_exp_near_pi_diag`, `C03_ln_of_exp_refuted`, `C04_exp_of_ln`, `C04_exp_of_ln_small`, `C04_exp_of_ln_near_pi`, `C04_exp_of_ln_refuted`, `C08_roundtrip_rotation`, `C10_so3_distance`, `C10_distance_is_relative_angle`, `C10_distance_zero`, `C10_distance_zero_refuted`, `C10_distance_bounds`, `C10_triangle`, `C10_triangle_refuted`, `C13_se3_exp_is_matrix_exponential`, `C13_matrix_exponential_unique`, `C14_ln_of_exp`, `C14_ln_of_exp_zero`, `C14_ln_of_exp_small`, `C14_exp_of_ln`, `C14_exp_of_ln_small`, `C14_ln_of_exp_near_pi`, `C14_exp_of_ln_near_pi`, `C14_ln_of_exp_refuted`, `C15_adjoint_exp_all`, `C17_regenerate`, `C17_regenerate_small`, `C17_regenerate_refuted`, `C18_distances`, `C18_rotation_triangle`, `C18_distance_symmetric`, `C18_distance_zero`, `C18_distance_zero_refuted`, `C22_wrap_angle`, `C23_wrap_angle_double_terminates_iff`, `C23_wrap_angle_double_range`, `C23_wrap_angle_double_terminates_refuted`, `C24_kind_kept`, `C24_pose2d_angle`, `C24_pose2d_update`, `C24_plane_unit`, `C24_plane_update`, `C24_plane_set_state_refuted`, `C24_pose3d_update_rigid`, `C24_pose3d_update`, `C24_pose3d_update_refuted`, `C24_auxiliary_kept`, `C24_update_from_auxiliary`, `C24_increments`, `C25_bookkeep_restore`, `C25_bookkeep_restore_refuted`, `C26_robust_weights`, `C26_ransac_refuted`, `C32_programs`, `C34_gauss_newton`, `C35_anchors`, `C35_only_active`, `C35_programs`, `C35_late_anchor_refuted`, `C36_lm_never_worse`, `C36_one_pass`, `C36_trial`, `C37_iterations`, `C37_total`, `C37_zero_iterations_refuted`, `C38_lambda_ignored`, `C39_stale_after_rejection`, `C40_residual`, `C40_jacobian`, `C40_updates`, `C41_residual`, `C41_jacobian_iff`, `C41_jacobian_refuted`, `C42_reversed_iff`, `C42_odom_reversed_iff`, `C42_numbering_refuted`, `C43_in_order`, `C43_reversed`, `C43_reversed_translation_iff`, `C43_numbering_refuted`, `C44_poses2d_iff`, `C44_poses2d_refuted`, `C44_odom`, `C44_poses3d`, `C44_reversed_refuted`, `C45_residual`, `C45_jacobian`, `C45_initialise`, `C45_close_refuted`, `C46_residual`, `C46_jacobian`, `C46_no_initialisation`, `C46_initialise_refuted`, `C47_residual`, `C47_same_plane`, `C47_jacobian`, `C47_update_refuted`, `C48_prior_residual`, `C48_relative_residual`, `C48_half_turn_refuted`, `C48_prior_jacobian`, `C48_relative_jacobian`, `C48_prior_jacobian_iff`, `C48_relative_jacobian_iff`, `C48_jacobian_refuted`, `C49_residual`, `C49_jacobian`, `C50_residual`, `C50_jacobian`, `C51_gradient_hessian`, `C51_one_node_gradient`, `C51_robust_ignored`, `C51_gradient_refuted`, `C51_optimum_refuted`, `C52_in_bounds`, `C52_anchor_refuted`, `C53_dense`, `C60_eigen_exists`, `C60_all_points_refuted`, `C60_frame_refuted`, `C62_index_range`, `C62_index_exact`, `C62_index_refuted`, `C62_scene`, `C62_counts`, `C62_truth`, `C62_on_planes`, `C62_registration`, `C65_python_sessions`, `C65_equal_ids_refuted`, `C66_sessions`, `C66_lm_never_worse`, `C67_repeat_refuted`, `C68_defined`, `C68_accounting`, `C68_error`, `C69_trajectory`, `C69_set_last_pose`, `C69_one_pose_refuted`, `C69_constant_velocity`, `C70_not_worse`, `C70_ends_on_path`, `C70_off_path_refuted`, `C71_alignment`, `C71_exact`, `C71_late_plane_throws`, `C71_mispaired_refuted`, `C72_codes`, `C72_no_ops`, `C72_single_ignored`, `C72_second_order`, `C72_keeps`, `C73_defined`, `C73_gradient`, `C73_two_poses`, `C73_three_poses_refuted`, `C73_hessian_two_poses`, `C73_hessian_refuted`, `C74_defined`, `C74_mean_square`, `C74_zero`, `C74_common_motion`, `C74_short_refuted`, `C74_zero_refuted`, `C75_add_node`, `C75_add_factor`, `C75_chi2_solve`, `C75_cached`, `C75_chi2_after_solve_refuted`, `C76_step`, `C76_one_node_factors`, `C76_same_step_refuted`, `C77_newest`, `C77_alone`, `C77_older_error`, `C77_older_error_fixed`, `C77_older_one_iteration`, `C77_independent_refuted`, `C78_defined`, `C78_report`, `C78_last_solve`, `C78_never_solved`, `C78_eigenvalues`, `C78_eigenvalues_gradient`, `C78_eigenvalues_stale`, `C78_planes_refuted`, `C78_range_refuted`, `C78_initial_error_refuted`, `C79_sessions`, `C79_costs`, `C79_initialise_refuted`, `C79_odometry_refuted`, `C79_close_refuted`, `C80_held`, `C80_posed`, `C80_floating`, `C80_isolated`, `C80_one_landmark`, `C80_centre`, `C81_best`, `C81_start`, `C81_again`, `C81_mean`, `C82_costs`, `C82_origin_refuted`, `C82_quarter_turn_refuted`, `C82_other_frame`, `C82_map`, `C83_excess`, `C83_distance`, `C83_passes`, `C84_order`, `C84_shares`, `C84_shares_robust_refuted`, `C85_balanced`, `C85_consistent`, `C85_fixed`, `C85_unsettled_refuted`, `C86_headings`, `C86_tree`, `C86_one_step_refuted`, `C87_parts`, `C87_lm_refuted`, `C88_ignored`, `C88_scale`, `C88_scale_robust_refuted`, `C88_scale_lm_refuted`, `C89_stationary`, `C89_downhill`, `C89_landmarks`, `C89_least_squares`, `C89_lm_refuted`, `C89_3d_refuted`, `C90_converges`, `C90_progress`, `C90_accepted`, `C90_tolerance`, `C90_robust_refuted`, `C90_3d_refuted`, `C91_located`, `C91_localise`, `C91_landmarks`, `C91_planes`, `C91_mixed`, `C91_line`, `C91_corridor`, `C91_unique_3d`, `C91_unique_2d`, `C92_right`, `C92_optimum`, `C92_planes`, `C92_walls_refuted`, `C92_close_refuted`, `C92_half_turn_refuted`, `C93_all_poses_defined`, `C93_momentum_defined`, `C93_all_poses`, `C93_alpha`, `C93_downhill`, `C93_momentum`, `C93_single_refuted`, `C93_unseen_refuted`, `C94_bounds`, `C94_rotation`, `C94_zero`, `C94_far`, `C94_vanishes`, `C94_best_refuted`, `C95_covariance`, `C95_compound`, `C95_grows`, `C95_frame_refuted`, `C96_inverse`, `C96_more`, `C96_determined`, `C96_leaf`, `C96_moved_refuted`, `C97_branch`, `C97_uncertainty`, `C97_again`, `C98_fit`, `C98_mean`, `C98_chi2`, `C99_determined`, `C99_fixed`, `C100_update`, `C100_quadratic`, `C101_order`, `C101_shares`, `C102_turned`, `C102_position`, `C103_ignored`, `C103_scale`, `C104_uncorrelated`, `C104_difference`, `C104_alone`, `C105_covariance`, `C105_solve`

## 8. Mutation testing

`seeded/LOG.jsonl` has one line per attempt: an edit of a model definition that
imitates a plausible bug, made in a scratch copy, then the whole development is
rebuilt.  Lemmas whose proof script no longer goes through are listed; lemmas
that depend on them are then tried with the broken ones taken as given.  A
theorem counts as failed when its script fails, or when it depends on a lemma
that fails; this can be broader than "its statement became false".  When no
theorem of the expected property failed, the theorem was tightened and the edit
tried again.
