# A Rocq (Coq 8.16.1) model of chutsu/yac

## How the model is organised

* `rocq/theories/*Model.v` – executable (or, for real-number code, definitional) Gallina models of functions in
  /repo. Each definition cites the file and lines it models and says what was simplified.
* `rocq/theories/*Spec.v` – small independent specifications used in statements (plain list/map/real-number
  vocabulary, no model helpers).
* `rocq/theories/*Proofs*.v` – lemmas.
* `rocq/theories/Prop_*.v` – the property theorems (named `Cnn_...`) with the lemmas that only they need, an `Example`
  showing that the hypotheses are met by concrete non-trivial cases, and `Print Assumptions`.
* `seeded/LOG.jsonl` – wrong programs tried against the theorems (one edit of a model definition each), which theorems
  failed, and what was tightened when none did.

Libraries used besides the standard library: std++ (lists, maps), Coquelicot (derivatives, integrals), Flocq (binary64
rounding), mathcomp ssreflect/algebra (matrices for marginalisation). They add no axioms of their own: the classes below
list standard library axioms only.

Conventions

* C++ outcomes: `Ret v` (normal return), `Throw e` (FATAL / std exception), `Undef` (undefined behaviour: out-of-bounds
  access, null/uninitialised use, ...). `assert` is treated as compiled out (the Makefile's `lib` target builds with
  CMAKE_BUILD_TYPE=Release, i.e. -DNDEBUG), so out-of-bounds Eigen accesses are `Undef`. Loops whose termination is the
  question take fuel or are inductive relations.
* A property that the unchanged code violates gets a theorem `..._refuted` with a concrete witness, and, where a natural
  guard exists, the statement under that guard (suffix `_partial` when the guard is more than the documented domain).
* Floating point: real-number code is modelled over R (exact) and says so at each definition; where rounding is what
  matters (time stamps, accumulated times) binary64 is modelled with Flocq; where NaN/inf behaviour matters
  (comparisons, division by zero) an explicit NaN/infinite value is part of the model.
* Oracles: OpenCV/AprilTag detections, PnP, the linear solver step, eigen-decomposition, splines, random numbers and
  file contents are arbitrary (universally quantified) subject only to the contract named in the statement.

## Per property

| id | property | modelled and proved by | theorem files | status |
|----|----|----|----|----|
| C01 | AprilGrid behaves as a map from (tag, corner) to keypoint | aprilgrid_t as a record {rows, cols, detected, count, data : rows of floats}; every operation a function into outcomes. Refinement to a map (tag, corner) -> keypoint, induction over operation lists | Prop_AprilGrid | proved |
| C02 | Detection counter equals the number of stored corners | same model; invariant "count = stored corners" by induction over operation lists; witnesses for duplicate adds and intersect | Prop_AprilGrid | partial |
| C03 | Measurements are complete, duplicate free, ordered and aligned | get_measurements as a loop over the rows; characterised as the sorted duplicate-free list of the map | Prop_AprilGrid | proved |
| C04 | Pairwise intersect keeps exactly the common corners | pairwise intersect; extensional equality with the intersection of the two maps | Prop_AprilGrid | proved |
| C05 | Many-way intersect keeps exactly the corners common to all grids | n-way intersect with its counting table; induction over the list of grids | Prop_AprilGrid | proved |
| C06 | Intersect leaves the detected flag consistent | flag after intersect; witness of disjoint grids | Prop_AprilGrid | partial |
| C07 | common_measurements pairs the two keypoints of each shared corner | common_measurements; list characterisation against the two maps | Prop_AprilGrid | proved |
| C08 | tag_ids lists visible tags once, ascending | tag_ids; sortedness and membership | Prop_AprilGrid | proved |
| C09 | Random sampling returns distinct present corners and stops | sample as a loop consuming a random stream with fuel; loop invariant, progress for fair streams, divergence for over-counted grids | Prop_AprilGrid2 | partial |
| C10 | Object points form the printed target | object_point / center / fiducial corners over R; algebra | Prop_AprilGrid2 | proved |
| C11 | Out-of-range tag ids are rejected before anything is stored | index guards over Z, storage writes as outcomes; case analysis and the witness tag_id = rows*cols | Prop_AprilGrid2 | partial |
| C12 | AprilGrid file round trip | save/load as lists of text lines, number formatting as arbitrary rounding functions; induction over the records | Prop_AprilGrid2 | partial |
| C13 | fully_observable means every corner is present | fully_observable; equivalence with the map being total | Prop_AprilGrid2 | proved |
| C14 | Detector output is all-or-nothing and in range | detection pipeline over arbitrary raw detections; filter characterisation | Prop_AprilGrid2 | partial |
| C15 | Parallel detection is schedule independent | worker threads as interleaved steps; commutation, hence equality of all schedules | Prop_AprilGrid2 | proved |
| C16 | Timeline returns the events of a timestamp in insertion order | timeline multimap; refinement to the filtered insertion history | Prop_Containers | proved |
| C17 | Ordered set keeps first-insertion order without duplicates | ordered_set_t; refinement to the duplicate-free history | Prop_Containers | proved |
| C18 | Vector helpers: slice, extend, pop_front | vector templates over arbitrary types; list induction | Prop_Containers | partial |
| C19 | Set helpers compute the set operations | set helper templates; list induction, membership | Prop_Containers | partial |
| C20 | Solver parameter/residual bookkeeping stays consistent | solver tables as association maps, ceres::Problem as the graph it documents; invariants over operation lists | Prop_Solver | partial |
| C21 | Removing parameters never depends on removal order | remove_param in both back ends; permutation invariance by induction | Prop_Solver | partial |
| C22 | Jacobian columns of different parameters never overlap | column layout from the parameter order; pairwise disjoint intervals | Prop_Solver2 | partial |
| C23 | Normal equations are those of the weighted least squares problem | eval / linear system assembly over dense real matrices; equality with J^T W J and -J^T W r | Prop_Solver2 | proved |
| C24 | Levenberg-Marquardt never accepts a worse estimate | LM loop over an arbitrary step oracle and a cost with NaN/inf; induction on the iterations | Prop_Solver2 | proved |
| C25 | Gauss-Newton behaviour on cost increase | GN loop likewise | Prop_Solver2 | partial |
| C26 | Camera chain stores symmetric inverse extrinsics | camchain tables; invariant over insertion histories | Prop_Camchain | proved |
| C27 | Camera chain finds an extrinsic for every connected pair | the search of camchain; exact outcome for every table | Prop_Camchain | partial |
| C28 | View outlier filtering removes exactly the threshold violators | calib_view/calib_camera tables; invariant of reachable calibrators, exact effect of the filter | Prop_Calib | partial |
| C29 | Adding then removing a view restores the problem | add_view/remove_view; state equality over all histories with fresh stamps | Prop_Calib | partial |
| C30 | A rejected next-best-view leaves the calibration unchanged | add_nbv_view with arbitrary optimiser; state equality on rejection | Prop_Calib2 | partial |
| C31 | NBV information gain test uses the previous best as baseline | find_nbv loop; induction over the accepted views | Prop_Calib2 | partial |
| C32 | Fixed extrinsics stay fixed through initialisation | initialisation of intrinsics/extrinsics with fixed flags; case analysis, witness | Prop_CalibInit | partial |
| C33 | Timestamp decomposition round trip | timestamps as 64-bit words, conversion in binary64 (Flocq); rounding error analysis | Prop_Time | partial |
| C34 | Timestamp merging for interpolation | merge of stamps over Z; list induction | Prop_Lerp | partial |
| C35 | Interpolated samples lie between their neighbours | lerp_data/lerp loops over sorted samples; loop invariants, out-of-bounds as Undef | Prop_Lerp | partial |
| C36 | closest_poses / interp_poses select by absolute time difference | closest_poses/interp_poses loops; loop invariants, witnesses | Prop_Poses | partial |
| C37 | IMU buffer trimming keeps what integration needs | imu_data_t::trim over lists of samples; list induction | Prop_Imu | partial |
| C38 | IMU interval extraction | imu_data_t::extract; list induction, uninitialised values explicit | Prop_Imu | partial |
| C39 | Little-endian integer decoding | byte buffers as lists of Z modulo 256, shifts on Z; arithmetic | Prop_Data | proved |
| C40 | CSV numeric files are read back as written | CSV writing/reading at character level, %f as rounding to six decimals; text parsing lemmas | Prop_Data | partial |
| C41 | Array lines are parsed within bounds | parse_*array_line over char buffers with capacity; out-of-bounds as Undef | Prop_Data2, Prop_Data3 | partial |
| C42 | Jacobian check reports success only for matching matrices | check_jacobian over matrices with NaN; case analysis | Prop_Data3 | partial |
| C43 | Matrix <-> vector packing round trips | packing loops as list operations over any entry type; list induction | Prop_Pack | proved |
| C44 | Path helpers | path functions over strings as character lists; list induction | Prop_Path | partial |
| C45 | Configuration vectors and matrices have the declared size | YAML nodes abstracted to scalars and sequences; exact acceptance conditions | Prop_Config | partial |
| C46 | Rigid transforms compose and invert | 4x4 / 3x3 real matrices as records; polynomial identities, Rigid preserved | Prop_Geom | proved |
| C47 | Quaternion multiplication matrices | quaternion products as 4x4 matrices; ring | Prop_Geom | proved |
| C48 | Pose updates keep a valid pose and compose with differences | pose/extrinsic parameterisation Plus/Minus; quaternion algebra, sinc bounds, induction over update histories | Prop_Geom2 | partial |
| C49 | Angle wrapping lands in the documented interval | wrap180/wrap360 with fmod over R; Euclidean division | Prop_Planar | partial |
| C50 | Planar geometry helpers | planar helpers over R; algebra, nra | Prop_Planar | partial |
| C51 | Descriptive statistics | statistics over lists of R, binary32 reciprocal as explicit rounding; induction | Prop_Stats | partial |
| C52 | Camera projection accepts exactly the points in front of the camera and inside the image | project functions of the three camera models; exact acceptance sets, field of view by atan/tan | Prop_Camera, Prop_Undistort2 | partial |
| C53 | Analytic projection Jacobians are the derivatives of the projection | Coquelicot directional derivatives of the projection against the returned matrices | Prop_Camera2 | partial |
| C54 | Distortion model is total around the optical axis | 0/0 as explicit NaN; limits at the axis | Prop_Camera2 | partial |
| C55 | Marginalisation preserves the solution for the remaining variables | Schur complement and eigen pseudo-inverse (eigen-solver by contract) with mathcomp matrices | Prop_Marg | partial |
| C56 | Robust loss weights | calib_loss_t::Evaluate over R; derivatives, monotonicity | Prop_Loss | partial |
| C57 | NBV reached only when the target is actually aligned | nbv_reached over arbitrary grids; case analysis | Prop_Nbv | partial |
| C58 | NBV pose sets have the documented size and targets are visible | calib_target_origin / calib_init_poses / calib_nbv_poses loops; list lengths and membership | Prop_Nbv | proved |
| C59 | linspace endpoints and count | linspace; induction | Prop_Stats | proved |
| C60 | Key point selection | sort / grid_detect / grid_good with arbitrary detector; permutation and length lemmas | Prop_Keypoint | partial |
| C61 | Seconds as floating point numbers | ts2sec/sec2ts in binary64 (Flocq); error bounds | Prop_Time | partial |
| C62 | Synchronising two signals | lerp_data of two signals; loop invariants | Prop_Lerp | partial |
| C63 | Configuration look-ups: missing and present keys | parse functions over abstract YAML; case analysis | Prop_Config | partial |
| C64 | Look-at camera poses | lookat over R; orthonormality | Prop_Planar | partial |
| C65 | Latitude/longitude helpers are consistent | latlon helpers over R; algebra/trigonometry | Prop_Planar | partial |
| C66 | sinc, circle and sphere points | sinc, circle, sphere; trigonometry | Prop_Planar | partial |
| C67 | Random helpers and tolerant comparison | randi/randf over arbitrary rand(), fltcmp; arithmetic | Prop_Stats | partial |
| C68 | Undistortion inverts distortion | undistort loops; contraction / Newton convergence with mean value estimates | Prop_Undistort, Prop_Undistort2 | partial |
| C69 | Marginalisation leaves an equivalent prior | marg_residual_t and the marginalisation of the solver, eigenvectors by contract; equality of quadratic forms | Prop_Marg, Prop_MargHess | partial |
| C70 | Lissajous trajectories are consistent motions | the lissajous trajectory functions over R; derivatives, orthonormality | Prop_Lissajous | proved |
| C71 | The next best trajectory is the best one | nbt_find; induction over the candidates with NaN | Prop_Nbt | partial |
| C72 | Simulation stays inside the trajectory | time loops in binary64; invariants | Prop_Nbt | partial |
| C73 | Residual Jacobians are the derivatives of the residuals | three visual residuals and pose/extrinsic/landmark/intrinsic blocks; Coquelicot derivatives | Prop_Residual, Prop_ResidualPrior | partial |
| C74 | Interpolating orientations and poses | slerp / interp_pose / lerp_pose over R; trigonometry | Prop_Interp | partial |
| C75 | Continuous trajectories pass through their way points consistently | ctraj with spline by contract; derivatives of the rotation | Prop_Ctraj | partial |
| C76 | The simulated IMU measures what it should | sim_imu_measurement; algebra on C75 | Prop_Sim | partial |
| C77 | The circular simulation is one consistent rigid motion | vio_sim circle loops; derivatives, consistency of the three streams | Prop_Sim | proved |
| C78 | Euler angles describe the rotation they were computed from | quat2euler/euler321; atan2/asin lemmas | Prop_Euler | partial |
| C79 | Gravity alignment | imu_init_attitude, vecs2rot; algebra | Prop_Euler | partial |
| C80 | The fiducial orientation block changes only roll and pitch | fiducial orientation block; C78 and angle uniqueness | Prop_Euler | partial |
| C81 | Noise added to a pose is bounded | add_noise to a pose; C78 | Prop_Euler | partial |
| C82 | IMU propagation follows the equations of motion | propagation loop over samples with 15x15 covariance and Jacobian; loop invariants, RInt of the rate, directional derivatives through the loop, quadratic forms | Prop_Preint, Prop_Preint4, Prop_Preint5 | partial |
| C83 | The IMU residual is zero exactly for consistent states and its Jacobians are its derivatives | Evaluate of the IMU residual with its own preintegration; invariants, derivatives, re-propagation corrections | Prop_Preint2, Prop_Preint3 | partial |
| C84 | The IMU residual is defined for every window and time delay | outcome of evaluation with out-of-bounds reads as Undef, time delay parameter | Prop_Preint2 | partial |
| C85 | The online VI calibrator keeps a bounded, consistent window of views | calib_vi_t as a state machine (problem as list of residual blocks), invariant over all histories | Prop_Vi, Prop_Vi2, Prop_Vi3, Prop_Vi4, Prop_Vi8 | partial |
| C86 | Every IMU residual of the VI calibrator covers the interval between its two views | flow invariant: links hold a contiguous piece of the IMU stream, over all chronological histories | Prop_Vi4, Prop_Vi8 | partial |
| C87 | Parameters declared fixed in the VI calibrator are never changed | set of constant blocks followed through every step, solver abstract but respecting constants | Prop_Vi3 | partial |
| C88 | The VI calibrator's initial estimates reproduce what was measured | rigid-transform algebra over reals, solvepnp abstract | Prop_Vi5 | partial |
| C89 | Resetting the VI calibrator removes what it has accumulated | reset as a step of the machine of C85; concrete restart witness by computation | Prop_Vi3 | partial |
| C90 | Cost and Hessian of the VI calibrator describe its whole problem | reachable states of the machine of C85; residuals as functions of their ids, addresses of parameter objects arbitrary and distinct; induction over residual lists | Prop_Vi6, Prop_Vi7 | partial |
| C91 | A speed-and-bias block has one meaning everywhere | vector segments of the block as lists; the IMU residual of C83; number formatting by its rounding bound | Prop_Sb | partial |
| C92 | Outlier rejection of the VI calibrator removes the outliers and nothing else | solve step of the machine of C85 with an arbitrary reprojection function and solver; induction over the views | Prop_Vi9 | partial |
| C93 | Motion-capture poses are synchronised with the camera frames | the loop of lerp_body_poses over the two stamp lists, lerp a parameter (C74 for lerp_pose); induction over the body stamps with the last stored sample as invariant | Prop_MocapSync | partial |
| C94 | The camera extrinsics are initialised from the motion-capture data | MocapModel.construct over any recording, pose estimator a parameter; induction over the frames for the last usable one, rigid-transform algebra of C46 for exactness | Prop_Mocap | partial |
| C95 | A motion-capture calibration keeps its views and its problem consistent | machine of views and problem (MocapModel), solver, information and shuffle arbitrary; invariant MocapProofs.Inv / NInv preserved by add, remove, filter and solve, related to MocapSpec.consistent | Prop_Mocap, Prop_Mocap3 | partial |
| C96 | Next-best-view keeps a motion-capture view only if it brings enough information | same machine; induction over the frames tried (Prop_Mocap2.loop_ind), potential argument for the bound | Prop_Mocap2 | partial |
| C97 | A rejected motion-capture view leaves no trace | same machine; the state before and after one rejected turn compared field by field | Prop_Mocap2 | partial |
| C98 | Motion-capture outlier filtering removes exactly the outliers | filter over all views with the sample standard deviations of Prop_Vi9; induction over views and measurements | Prop_Mocap | partial |
| C99 | The saved motion-capture results describe the calibration | same machine; keys of the pose map followed through solve() and solve_nbv() | Prop_Mocap3 | partial |
| C100 | The estimated covariance is the block of the inverse information matrix | CovarModel (columns, information matrix), CovarMatModel (mathcomp matrices over R, made an rcfType in RealInst); entries of J^T J from the loops (hess_entry), Schur complement = inverse of a block of the inverse | Prop_Covar, Prop_Covar2 | partial |
| C101 | The covariance matrix is assembled from the solver library's blocks at the right places | CovarModel.ceres_covariance; invariant: every block written so far agrees with the covariance | Prop_Covar3 | partial |
| C102 | The score of a candidate view is the uncertainty after adding it | CovarModel.nbv_order_new / nbv_hessian, CovarMatModel.nbv_eval; the columns of the evaluator are those of the list cameras, extrinsics, poses, new pose (CovarProofs2.nbv_new), the sum of the two matrices is J^T J of all residuals; Schur complement, determinant of positive definite matrices, singular values; refutations on 13x13 problems computed in CovarEx | Prop_Covar4, Prop_Covar5 | partial |
| C103 | The next best view is the best of the candidates, and the search leaves the problem alone | NbvFindModel.find_nbv / find_nbv_fast; adding a candidate and removing it again restores the state up to the recorded data (NbvFindProofs.try_ok, from the add/remove theorems of C28), induction over the candidates gives the list of scores, and the running minimum over it is the first smallest (pick_spec); races and key errors by computation, refutations on the calibrator of CalibExample. | Prop_NbvFind | partial |
| C104 | Outlier removal removes exactly the outliers, and judges each view by its information | OutlierModel.outlier_view / outlier_loop / remove_outliers / filter_all_views over the calibrator model of C28; residual values, solver results and the information are arbitrary functions of the state. OutlierProofs follows one view through filtering, solving, removal and re-adding (readd, restore_*), using the add/remove theorems of C28; induction over the list of views gives the whole call. | Prop_Outlier | partial |
| C105 | Marginalising the oldest view of the camera calibrator replaces exactly that view by a prior | CamMargModel.marginalize over the calibrator model of C28 plus a prior object, with the parameter lists of form_hessian (C69). CamMargProofs: forgetting the prior commutes with every solver operation (forget_*), so each call is simulated by the same call on the calibrator without prior (sim_*), for which C28 has the invariant; CamMargProofs2/3: invariant MInv by induction over histories, exact effect of marginalize. | Prop_CamMarg | partial |
| C106 | Which frames next-best-view calibration considers, and in which order | MotionModel: the frames as a list, grid.estimate as data, the std::map keyed by (int, double, double) as a list sorted by a three-way comparison over R, unchecked vector indices give Undef. MotionProofs: map insertion keeps order and last occurrences win (puts_ok), the loop is a fold over the entries (loop_puts); induction over frames for locates. | Prop_Motion | partial |
| C107 | Next-best-view calibration tries the candidates in order, stops early only as configured, and keeps the newest views of its window | NbvLoopModel.turn / nbv_loop over the calibrator with prior of C105: add_nbv_view, remove_outliers and marginalize as modelled for C28, C104 and C105; what the environment contributes to a turn is an arbitrary function of the state and the candidate. Induction over the candidates with the log of acceptances as history variable; the views a filter re-adds keep their timestamp because grids are of their view's time (own). | Prop_NbvLoop | partial |
| C108 | Pose and IMU files are read as written, character by character | PoseFileModel: a file is its characters; skip_line with its 8191 character limit, file_rows, and fscanf (white space, sign, digits, saturation, the comma literals) are recursive functions on it. The specification (PoseFileSpec) says what a line means as a grammar, independently of the reader; induction over the lines with the white space left over from the previous row as the generalised part. Printing is that of TextModel, its output shown to be in the grammar with the value it stands for; the rotation error follows from C46 and a bound on the rounded unit quaternion. | Prop_PoseFile | partial |
| C109 | The truncated solver returns the least squares step, of the poorly observable part the smallest | TruncModel, over the reals with mathcomp matrices: the matrix split at marg_idx, the factorisations as arbitrary functions meeting their contracts. With P the projector orthogonal to the left columns the residual is P (A_r x_r - b) and the reduced system is the normal equation of P A_r; a singular value of zero means a zero column of P A_r U, so that the pseudo-inverse solves it (no rank argument needed), and its range is orthogonal to the kernel. The determinant: the reduced matrix is the Schur complement of J^T J (C100). The conversion: induction over the columns with the lists built so far. | Prop_Trunc | partial |
| C110 | Loading the detected grids of a data set makes one view per time with a detected grid | LoadViewsModel: list_files (sorted by unsigned characters), the test and conversion of the first 19 characters, the two nested std::maps, add_view of CalibModel. The sorting is shown to be the alphabetical order of LoadViewsSpec, the last insertion for a time the alphabetically greatest file; the loop by induction over the ascending keys with the effect of add_view (NbvLoopProofs). | Prop_LoadViews | partial |
| C111 | The simulated frames of a trajectory show what the cameras would see from its poses | SimGridModel over AprilGridModel and the corner loops of NbvModel; the loop over the time as an inductive relation. The points go through two inverses and a projection: for rigid transforms this is the world point seen from T_WC0 T_C0Ci (C46); counting by induction over the corners; the times by induction over the remaining range. C111_timeline applies C16 to the list of events. C111_rig is cancellation in the group of rigid transforms against the measurement geometry of C84. | Prop_SimGrid | partial |

What is missing from each partial one is said in the note of MANIFEST.json and in the comment above each `_partial` or `_refuted` theorem.

## What is modelled and what is not, per source file

| file (under /repo/yac/lib) | modelled | not modelled |
|----|----|----|
| util/core.cpp, core.hpp | time stamps, interpolation (lerp, slerp, poses), linear algebra helpers, Schur complement / pseudo-inverse, geometry, rotations, Euler angles, statistics, packing, matrix check, ctraj, simulated IMU, IMU buffers | printing, drawing, timing (tic/toc), svd-only helpers, save functions other than those in data.cpp |
| util/data.cpp, data.hpp | container helpers, CSV reading and writing, array lines, pose and IMU files | thread pools, byte I/O to real files |
| util/fs.cpp | path string functions, list_files and list_dir over an arbitrary listing | file system calls |
| util/config.cpp, config.hpp | typed look-ups over abstract YAML nodes | the YAML parser |
| util/timeline.cpp | all | – |
| util/cv.cpp | camera models, projection, distortion, undistortion, Jacobians, key point sorting and grid detection | feature detectors, optical flow, drawing, cv::undistort wrappers |
| util/ceres_utils.cpp | pose local parameterisation | ceres itself |
| util/aprilgrid.cpp | aprilgrid_t, save/load, detector post-processing, parallel detection | AprilTag detection, image drawing |
| calib_params.cpp, calib_data.cpp | poses, extrinsics, fiducial, parameter plus/minus, target loading | printing |
| calib_residuals.cpp | visual residuals, IMU residual and propagation, marginalisation residual, prior | mocap residual only as used by calib_mocap.cpp (value, C94 - C99) |
| calib_loss.cpp | all | – |
| solver.cpp | parameter/residual bookkeeping, column layout, Hessian and gradient, LM / GN loops, covariance estimation (both solvers) | SuiteSparse solve, printing |
| calib_camera.cpp, calib_nbv.cpp, calib_nbt.cpp, calib_sim.cpp | camera chain, views, initialisation, outlier filtering, NBV / NBT selection, view evaluator, Lissajous trajectories, simulated camera frames and their timeline, loading of detected grids, circle simulation | ceres optimisation (arbitrary), validation output, marker detection threads other than C15 |
| calib_vi.cpp | add_imu, add_camera, set_fiducial, add_measurement, initialize, add_view, marginalize, filter_view, solve, reset, initial estimates, cost, eval_residuals, form_hessian, load_data, print_speed_biases | printing, saving, config parsing; ceres and solvepnp are abstract functions |
| calib_data.cpp | lerp_body_poses, load_imu_data | loading of images |
| calib_mocap.cpp | loading of the data into the problem, views, residuals, outlier filter, solve, solve_nbv, save table | config parsing, image preprocessing (the detected grids are arbitrary), printing; ceres, the information measure and solvepnp are abstract functions |
| suitesparse.cpp | truncated solver, marginal analysis, conversions (TruncModel; exact reals, libraries by contract) | SuiteSparse itself, reduction to triplets, memory management, statistics |
| util/net.cpp, euroc.hpp, demos | see the table above for what later properties cover | the rest |

## Trusted base

* The kernel of Coq 8.16.1 (`coqc`; no plugin of our own, no kernel check switched off, `vm_compute` is used in some proofs and its conversion is part of the kernel).
* The axioms below: all are from the Coq standard library (its real numbers, and the classical and extensional facts used with them). None is ours.
* That the model is a faithful reading of the C++ (no extraction and no run of the code is possible here), within the simplifications listed above and at each definition.

Classes of axioms listed by `Print Assumptions`:

* **none** – closed under the global context (101 theorems)
* **A** – `ClassicalDedekindReals.sig_forall_dec` (27 theorems)
* **B** – `ClassicalDedekindReals.sig_forall_dec`, `FunctionalExtensionality.functional_extensionality_dep` (139 theorems)
* **C** – `ClassicalDedekindReals.sig_forall_dec`, `ClassicalDedekindReals.sig_not_dec`, `FunctionalExtensionality.functional_extensionality_dep` (113 theorems)
* **D** – `ClassicalDedekindReals.sig_forall_dec`, `ClassicalDedekindReals.sig_not_dec`, `Classical_Prop.classic`, `FunctionalExtensionality.functional_extensionality_dep` (151 theorems)
* **E** – `ClassicalDedekindReals.sig_forall_dec`, `ClassicalEpsilon.constructive_indefinite_description`, `Classical_Prop.classic`, `FunctionalExtensionality.functional_extensionality_dep` (1 theorems)
* **F** – `ClassicalDedekindReals.sig_forall_dec`, `ClassicalDedekindReals.sig_not_dec`, `ClassicalEpsilon.constructive_indefinite_description`, `Classical_Prop.classic`, `FunctionalExtensionality.functional_extensionality_dep` (15 theorems)

Per theorem (theorems of MANIFEST.json, grouped by property):

| id | theorem: class |
|----|----|
| C01 | C01_grid_is_a_map: B |
| C02 | C02_counter_exact_partial: B, C02_single_grid_partial: B, C02_counter_never_undercounts: B, C02_counter_refuted: A, C02_detected_flag_refuted: A |
| C03 | C03_measurements: B |
| C04 | C04_pairwise_intersect: B |
| C05 | C05_many_way_intersect: B |
| C06 | C06_intersect_flag_partial: B, C06_intersect_flag_refuted: A |
| C07 | C07_common_measurements: B |
| C08 | C08_tag_ids: B |
| C09 | C09_sample_result: B, C09_sample_stops: B, C09_sample_diverges_refuted: B |
| C10 | C10_object_points: B, C10_fiducial_corners_domain: B, C10_distinct_points: B, C10_center: B |
| C11 | C11_out_of_range_partial: A, C11_one_past_end_refuted: A, C11_rejected_add_visible_refuted: A |
| C12 | C12_save_load_partial: B, C12_save_load_rounded: B, C12_undetected_refuted: A, C12_load_smaller_refuted: A |
| C13 | C13_fully_observable: B, C13_duplicate_adds_refuted: A |
| C14 | C14_detect_single: C, C14_detect_worker: C, C14_v3_refuted: A |
| C15 | C15_schedule_independent: C, C15_fair_schedules_finish: A, C15_single_image_differs_refuted: C |
| C16 | C16_timeline: none |
| C17 | C17_ordered_set: none |
| C18 | C18_slice: none, C18_slice_domain: none, C18_extend: none, C18_pop_front_partial: none, C18_pop_front_refuted: none, C18_all_true: none |
| C19 | C19_set_union: none, C19_set_diff: none, C19_set_symmetric_diff: none, C19_intersection_partial: none, C19_intersection_refuted: none |
| C20 | C20_ceres_tables: none, C20_ceres_remove_param: none, C20_ceres_residuals: none, C20_base_tables_partial: none, C20_base_tables_refuted: none |
| C21 | C21_ceres_removal_order: none, C21_base_removal_order_partial: none, C21_base_removal_order_refuted: none |
| C22 | C22_layout_partial: none, C22_layout_defined: none, C22_layout_refuted: none, C22_no_camera_refuted: none |
| C23 | C23_normal_equations: B, C23_in_bounds: none |
| C24 | C24_lm_step: B, C24_lm_never_worse: B, C24_lm_iterations: B, C24_unregistered_refuted: B |
| C25 | C25_gn_never_worse_partial: B, C25_gn_iterations: B, C25_gn_nan_refuted: B |
| C26 | C26_insert_history: B, C26_constructor: B, C26_self_insert_refuted: B |
| C27 | C27_links: B, C27_find_complete: A, C27_find_partial: B, C27_connected_pair_refuted: A |
| C28 | C28_filter_view_partial: B, C28_map_overload: B, C28_one_sided_refuted: B, C28_map_overload_refuted: B |
| C29 | C29_correspondence: B, C29_add_view: B, C29_add_then_remove: B, C29_remove_view: B, C29_remove_all_views: B, C29_repeated_timestamp_refuted: A |
| C30 | C30_rejected_view_restored_partial: B, C30_decision: B, C30_existing_timestamp_refuted: B |
| C31 | C31_gain_test: B, C31_baseline_monotone: B, C31_infinite_information_refuted: B |
| C32 | C32_fixed_intrinsics_partial: none, C32_fixed_extrinsics_refuted: none |
| C33 | C33_round_trip: D, C33_exact_decomposition_partial: D, C33_nsec_bounds: D, C33_nsec_range_refuted: D, C33_negative_stamp_refuted: D |
| C34 | C34_lerp_timestamps_partial: none, C34_members: none, C34_strict_bounds_refuted: none, C34_argument_order_refuted: none, C34_empty_input_refuted: none |
| C35 | C35_values_on_segment_partial: B, C35_exact_when_dense: B, C35_out_of_bounds_refuted: none, C35_last_stamp_dropped_refuted: B, C35_neighbours_refuted: B, C35_float_test_exact: D |
| C36 | C36_interp_poses_partial: B, C36_closest_poses_partial: none, C36_shared_interval_refuted: B, C36_late_start_refuted: B, C36_closest_never_complete_refuted: none, C36_closest_out_of_bounds_refuted: none, C36_closest_wrong_refuted: none |
| C37 | C37_trim_keeps_one_before: none, C37_trim_nothing_before: none, C37_trim_never_empties: none, C37_all_before_emptied_refuted: none |
| C38 | C38_extract_partial: A, C38_rest_covers_next: A, C38_start_uninitialised_refuted: B, C38_end_not_interpolated_refuted: A, C38_short_interval_refuted: A, C38_start_before_buffer_refuted: none |
| C39 | C39_unsigned: none, C39_signed: none |
| C40 | C40_fields: B, C40_round_trip_partial: B, C40_single_column_refuted: B, C40_short_row_refuted: B |
| C41 | C41_iarray_values: B, C41_iarray_exact: B, C41_load_iarrays: B, C41_iarray_overflow_refuted: B, C41_unterminated_refuted: B, C41_darray_overflow_refuted: B, C41_darray_partial: B, C41_csv_data_square_partial: B, C41_csv_data_not_square_refuted: B, C41_long_header_refuted: none, C41_missing_file_refuted: B |
| C42 | C42_check_partial: B, C42_shape_mismatch_refuted: B, C42_nan_refuted: B |
| C43 | C43_layout: none, C43_unload_layout: none, C43_matrix_round_trip: none, C43_vector_round_trip: none, C43_mat2array_layout: none, C43_mat2vec_layout: none, C43_vecs2mat_layout: none, C43_hstack: none, C43_vstack: none, C43_nonempty_output_refuted: none, C43_array2vec_refuted: none |
| C44 | C44_path_split_partial: none, C44_trailing_slash_refuted: none, C44_paths_join_partial: none, C44_too_many_up_refuted: none, C44_empty_result_refuted: none, C44_join_wrong_refuted: none, C44_dir_and_name: none, C44_dir_name_refuted: none, C44_extension: none, C44_no_dot_refuted: none, C44_dotted_directory_refuted: none, C44_strip: none, C44_strip_all_refuted: none, C44_file_copy: none |
| C45 | C45_vector_partial: none, C45_long_vector_refuted: none, C45_fixed_matrix_partial: none, C45_fixed_dims_refuted: none, C45_dynamic_matrix_partial: none, C45_surplus_refuted: none |
| C46 | C46_rotation_group: B, C46_tf_inv_two_sided: B, C46_tf_inv_iff_orthonormal: B, C46_rigid_group: B, C46_tf_point: B, C46_rotation_builders: C, C46_rvec2rot_rodrigues: C, C46_Exp_is_rvec2rot: C, C46_euler_conventions: C, C46_quaternion_conversion: C, C46_rvec2rot_small_angle_refuted: C, C46_rvec2rot_small_angle_defect: C |
| C47 | C47_product_matrices: B, C47_unit_closed: B, C47_quat2rot_homomorphism: B, C47_quat2rot_sandwich: B |
| C48 | C48_quat_delta_norm: D, C48_plus_keeps_unit_norm_partial: D, C48_plus_keeps_unit_norm_refuted: D, C48_plus_norm_drift: D, C48_zero_update: C, C48_minus_undoes_plus: D, C48_update_meaning: D, C48_ceres_plus_unit: D, C48_ceres_zero_update: C, C48_ceres_zero_update_refuted: C, C48_solvers_agree: D, C48_lift_plus_jacobian: C, C48_plus_jacobian_is_derivative: D, C48_pose_diff: C |
| C49 | C49_congruent: C, C49_range_partial: C, C49_radians_partial: C, C49_negative_angles_refuted: B |
| C50 | C50_closest_point: C, C50_left_right: B, C50_cross_track_partial: C, C50_cross_track_refuted: C, C50_circles_partial: C, C50_concentric_refuted: C, C50_fit_circle: C |
| C51 | C51_mean: B, C51_var: C, C51_degenerate: C, C51_rmse: C, C51_max: B, C51_median: B, C51_median_empty_refuted: B, C51_binomial: B, C51_binomial_domain: B, C51_binomial_diverges_refuted: B, C51_vector_mean_partial: D, C51_vector_mean_refuted: D |
| C52 | C52_radtan4: B, C52_equi4_partial: D, C52_equi4_on_axis: D, C52_pinhole_partial: B, C52_border_refuted: D, C52_depends_on_ray: D, C52_focal_fov: D |
| C53 | C53_radtan4_point: D, C53_radtan4_params: D, C53_equi4_point_partial: D, C53_equi4_params_partial: D, C53_pinhole: D |
| C54 | C54_distort_centre: D, C54_projection_smooth: D, C54_centre_refuted: D, C54_off_centre_partial: D |
| C55 | C55_schur_partial: none, C55_check_refuted: none |
| C56 | C56_value: D, C56_weight_partial: D, C56_unit_slope_refuted: D, C56_unit_slope_partial: D, C56_curvature_refuted: D |
| C57 | C57_reached_partial: C, C57_no_overlap_refuted: C |
| C58 | C58_fully_observable: B, C58_target_grid: B, C58_origin: C, C58_candidate_fills: B, C58_init_poses: C, C58_nbv_poses: C, C58_nbv_poses_all: C |
| C59 | C59_linspace: B, C59_degenerate: B |
| C60 | C60_sort_partial: B, C60_sort_refuted: B, C60_max_per_cell: D, C60_grid: D, C60_grid_bound_partial: D, C60_grid_refuted: D |
| C61 | C61_seconds_round_trip: D, C61_seconds_accuracy: D, C61_epoch_round_trip_refuted: D |
| C62 | C62_synchronises_partial: B, C62_different_lengths_refuted: B, C62_out_of_bounds_refuted: none |
| C63 | C63_missing_key: none, C63_present: none, C63_vector_appends_refuted: none |
| C64 | C64_lookat: C, C64_parallel_up_refuted: C |
| C65 | C65_offset_then_diff_partial: C, C65_offset_refuted: C, C65_dist: C, C65_asymmetric_refuted: C |
| C66 | C66_sinc: C, C66_circle_sphere: D, C66_latitude_refuted: C |
| C67 | C67_randf: B, C67_randi_partial: none, C67_randi_refuted: none, C67_fltcmp: B, C67_fltcmp_transitive_refuted: B |
| C68 | C68_radtan4_plain_partial: B, C68_radtan4_fixpoint_partial: B, C68_radtan4_refuted: B, C68_radtan4_converges_partial: D, C68_radtan4_ray_partial: D, C68_equi4_partial: D, C68_equi4_plain_partial: D |
| C69 | C69_prior_partial: none, C69_cutoff_refuted: none, C69_layout_partial: none, C69_hessian_partial: B, C69_layout_refuted: B |
| C70 | C70_kinematics: D, C70_sphere: D, C70_closed: D, C70_errors: D, C70_saved_imu: D |
| C71 | C71_best_partial: D, C71_failed_refuted: D |
| C72 | C72_in_range: D, C72_simulate: D, C72_eval_partial: D, C72_eval_refuted: D |
| C73 | C73_reproj_partial: D, C73_mocap_partial: D, C73_fiducial_partial: D, C73_invalid_view: C, C73_fiducial_invalid_refuted: C, C73_behind_camera_refuted: D, C73_pose_prior_error: C, C73_pose_prior_partial: D, C73_pose_prior_ceres_refuted: none, C73_linear_prior: D, C73_linear_prior_refuted: A |
| C74 | C74_slerp: D, C74_slerp_ends: D, C74_interp_pose_partial: D, C74_interp_pose_refuted: D, C74_lerp_pose_partial: D |
| C75 | C75_kinematics_partial: C, C75_ends_refuted: C, C75_waypoints_partial: D, C75_waypoints_refuted: D |
| C76 | C76_measurement: C, C76_first_interval_refuted: C, C76_noise_refuted: C, C76_bias: C, C76_bias_start: C |
| C77 | C77_circle: D, C77_features: B, C77_observations: D, C77_timeline: none |
| C78 | C78_angles_partial: D, C78_unique_partial: D, C78_gimbal_lock_refuted: D |
| C79 | C79_vecs2rot_partial: C, C79_opposite_refuted: C, C79_init_attitude: D, C79_short_buffer_refuted: D |
| C80 | C80_fiducial_partial: D, C80_undo_refuted: D |
| C81 | C81_add_noise_partial: D |
| C82 | C82_outcome: C, C82_empty_window: C, C82_straight_motion: C, C82_at_rest: C, C82_rotation_partial: D, C82_constant_rate: D, C82_late_start: C, C82_late_start_refuted: D, C82_velocity_partial: D, C82_covariance: D, C82_cov_accel_noise: C, C82_cov_bias: C, C82_cov_attitude: C, C82_cov_still_gyro_partial: C, C82_cov_still_gyro_bias_partial: C, C82_cov_still_accel_bias_partial: C, C82_cov_chain_refuted: C, C82_jacobian_pose_partial: D, C82_jacobian_accel_partial: D, C82_jacobian_gyro_partial: D, C82_jacobian_gyro_rotation_refuted: D |
| C83 | C83_straight: C, C83_rotation_partial: D, C83_inside_interval: C, C83_rotation_refuted: D, C83_zero_at_propagation_partial: D, C83_jacobian_pose_i_partial: D, C83_jacobian_pose_j_partial: D, C83_jacobian_speed: D, C83_jacobian_bias_j: D, C83_jacobian_gyro_i_partial: D, C83_jacobian_accel_i: D, C83_information: C |
| C84 | C84_outcome: C, C84_unbounded_delay: C, C84_delay_is_shift: C |
| C85 | C85_window: D, C85_bounded: D, C85_prior: D, C85_marginalize: D, C85_no_undefined: D, C85_failures: D, C85_view_added: D, C85_waits: D, C85_drops: D, C85_first_view: D, C85_delay_forgotten_refuted: D, C85_other_camera_refuted: D, C85_mixed_frames_refuted: D |
| C86 | C86_order: D, C86_samples: D, C86_evaluates: D, C86_slow_imu_refuted: D, C86_late_imu_refuted: D, C86_load_data: none |
| C87 | C87_fixed_partial: D, C87_delay_partial: D, C87_declared: D, C87_delay_freed_refuted: D, C87_delay_moves_refuted: D |
| C88 | C88_first_view: D, C88_preset_refuted: D, C88_next_view: D |
| C89 | C89_reset: D, C89_prior_kept_refuted: D, C89_restart_refuted: D |
| C90 | C90_cost_partial: D, C90_newest_refuted: D, C90_layout_partial: D, C90_hessian_partial: D, C90_hessian_fails: D, C90_delay_refuted: D |
| C91 | C91_save_load: D, C91_load: none, C91_accessors: A, C91_exchanged_refuted: C, C91_true_biases_refuted: D |
| C92 | C92_rejects_partial: D, C92_one_sided_refuted: D, C92_uniform_refuted: D, C92_single: D, C92_unprojectable_refuted: D |
| C93 | C93_sync_partial: none, C93_exact_partial: none, C93_shared_interval_refuted: none, C93_too_few_refuted: none, C93_coincident_refuted: none, C93_no_overlap_refuted: none, C93_orientation_refuted: D |
| C94 | C94_start: C, C94_exact: C, C94_none_refuted: C, C94_short_refuted: C |
| C95 | C95_solve: C, C95_errors: C, C95_loop: C, C95_nbv: C, C95_again_refuted: C, C95_nbv_after_refuted: C, C95_solve_after_nbv_refuted: C |
| C96 | C96_rule: C, C96_bound: C, C96_baseline_refuted: C, C96_failed_refuted: C |
| C97 | C97_restored_partial: C, C97_eighth_refuted: C, C97_outliers_refuted: C |
| C98 | C98_filter: C, C98_one_sided_refuted: C, C98_few: C |
| C99 | C99_rows_solve: C, C99_rows_nbv: C, C99_header_refuted: C, C99_fixed: C |
| C100 | C100_covariance_partial: F, C100_unobserved_partial: F, C100_unknown_type_refuted: F, C100_weak_refuted: F, C100_check_refuted: F |
| C101 | C101_ceres_partial: A, C101_failure_partial: A, C101_fixed_refuted: A |
| C102 | C102_score_partial: F, C102_fixed_camera_refuted: F, C102_unseen_camera_refuted: F, C102_no_pose_refuted: F |
| C103 | C103_find_partial: B, C103_fast_partial: B, C103_checked: B, C103_positive_refuted: B, C103_race_refuted: B, C103_numbering_refuted: B, C103_data_refuted: B, C103_existing_view_refuted: B, C103_no_stamps_refuted: B |
| C104 | C104_view_partial: C, C104_outliers_partial: C, C104_filter_all: C, C104_thresholds: C, C104_residuals: none, C104_added: B, C104_empty_refuted: C, C104_spread_refuted: C, C104_outliers_back_refuted: C, C104_no_info_refuted: C |
| C105 | C105_problem_partial: B, C105_marginalize: B, C105_undefined: B, C105_remove_all: B, C105_remove_all_refuted: B, C105_empty_view_refuted: B, C105_all_fixed_refuted: B, C105_no_views_refuted: B |
| C106 | C106_candidates: D, C106_stamps: D, C106_detected: none, C106_motion: D, C106_no_pose_refuted: D, C106_few_refuted: D, C106_ends_refuted: D, C106_static_refuted: D, C106_tags_refuted: D |
| C107 | C107_early: C, C107_views: C, C107_window: C, C107_newest: C, C107_reach: C |
| C108 | C108_load_poses: B, C108_bad_line: B, C108_round_trip: C, C108_save_short: C, C108_load_imu: B, C108_imu_swapped_refuted: B, C108_camera_poses: B |
| C109 | C109_rank: F, C109_solve: F, C109_runs: F, C109_marginal: F, C109_unobservable_refuted: F, C109_pattern_refuted: F, C109_convert: E |
| C110 | C110_views: A, C110_missing: A, C110_sign_refuted: A, C110_stamp_refuted: A |
| C111 | C111_frames: B, C111_times: B, C111_ends: B, C111_incomplete: B, C111_rig: B, C111_timeline: none |
