{"id": "C01", "title": "AprilGrid behaves as a map from (tag, corner) to keypoint", "statement": "After any history of add / remove(corner) / remove(tag) / clear calls with in-range ids on a constructed grid, has(t,c) is true exactly when the most recent of those calls that concerns (t,c) was an add, and keypoint(t,c) then returns the keypoint given to that add; otherwise keypoint throws.", "quantifier": "every grid size, every finite sequence of operations with in-range ids, every keypoint value", "why_tests_cant": "a test fixes one grid size and one short history; interference between different corners (row index tag*4+corner) shows only for particular histories", "anchors": ["yac/lib/util/aprilgrid.cpp: aprilgrid_t::add, remove, clear, has, keypoint"]}
{"id": "C02", "title": "Detection counter equals the number of stored corners", "statement": "In every state reachable through the constructor and add / remove / clear / intersect, the public counter nb_detections equals the number of corners that get_measurements would report present, and detected is true iff that number is positive.", "quantifier": "every operation history, including adds of a corner that is already present and grids emptied by intersect", "why_tests_cant": "the counter is maintained incrementally by five different functions; only a proof over all histories shows whether they agree", "anchors": ["yac/lib/util/aprilgrid.cpp: aprilgrid_t::add, remove, clear, intersect"]}
{"id": "C03", "title": "Measurements are complete, duplicate free, ordered and aligned", "statement": "get_measurements appends four parallel vectors of equal length which list exactly the present corners once each, in ascending (tag, corner) order, entry k giving that corner's stored keypoint and the target-frame point object_point(tag,corner); keypoints() and object_points() return the same entries in the same order.", "quantifier": "every reachable grid that is flagged as detected", "why_tests_cant": "residual construction silently relies on index alignment of the four vectors for every subset of corners; tests use fully visible targets", "anchors": ["yac/lib/util/aprilgrid.cpp: get_measurements, keypoints, object_points, add"]}
{"id": "C04", "title": "Pairwise intersect keeps exactly the common corners", "statement": "After g0.intersect(g1) on two grids of equal dimensions both grids hold exactly the corners both held before, with unchanged keypoints in each, both counters drop by exactly the number of corners removed, and repeating the call or swapping the roles changes nothing further.", "quantifier": "every pair of grids with the same rows and columns", "why_tests_cant": "there are 2^(4*rows*cols) visibility patterns per grid", "anchors": ["yac/lib/util/aprilgrid.cpp: aprilgrid_t::intersect(aprilgrid_t&)", "yac/lib/util/data.hpp: set_symmetric_diff"]}
{"id": "C05", "title": "Many-way intersect keeps exactly the corners common to all grids", "statement": "After the static intersect over a non-empty list of same-size grids, every grid holds exactly the corners that all grids held before, with its own keypoints, and its counter is reduced by the number of corners it lost.", "quantifier": "every list length and every visibility pattern", "why_tests_cant": "depends on a row counter compared with the number of grids; a test covers two or three grids", "anchors": ["yac/lib/util/aprilgrid.cpp: aprilgrid_t::intersect(std::vector<aprilgrid_t*>&)"]}
{"id": "C06", "title": "Intersect leaves the detected flag consistent", "statement": "A grid that holds no corner after intersect is no longer reported as detected.", "quantifier": "every pair of grids", "why_tests_cant": "needs the disjoint-visibility corner case", "anchors": ["yac/lib/util/aprilgrid.cpp: aprilgrid_t::intersect, remove"]}
{"id": "C07", "title": "common_measurements pairs the two keypoints of each shared corner", "statement": "For two detected grids of equal dimensions common_measurements appends exactly the shared corners in ascending order, with grid i's and grid j's own keypoints at the same index and the corner's object point; if either grid is not detected it appends nothing.", "quantifier": "every pair of reachable grids", "why_tests_cant": "stereo residuals pair keypoints by index for every visibility pattern", "anchors": ["yac/lib/util/aprilgrid.cpp: aprilgrid_t::common_measurements"]}
{"id": "C08", "title": "tag_ids lists visible tags once, ascending", "statement": "tag_ids() returns the strictly ascending list of exactly those tag ids having at least one present corner.", "quantifier": "every reachable grid", "why_tests_cant": "all visibility patterns", "anchors": ["yac/lib/util/aprilgrid.cpp: aprilgrid_t::tag_ids"]}
{"id": "C09", "title": "Random sampling returns distinct present corners and stops", "statement": "sample(n) on empty output vectors returns min(n, nb_detections) pairwise different corners that are all present, with their keypoints and object points, for whatever the random generator returns; it stops as soon as the generator has produced enough distinct corners.", "quantifier": "every grid, every n, every stream of random numbers", "why_tests_cant": "tests use one seed; termination depends on the counter/contents invariant", "anchors": ["yac/lib/util/aprilgrid.cpp: aprilgrid_t::sample", "yac/lib/util/core.cpp: randi"]}
{"id": "C10", "title": "Object points form the printed target", "statement": "object_point places tag t at column t mod cols and row t div cols with pitch size*(1+spacing); the four corners are the unit square of side size counter clockwise from bottom left; different corners have different points when size > 0 and spacing > 0; center() is the midpoint of the bounding box of all corners; calibration-side fiducial corner parameters coincide with these points.", "quantifier": "every grid geometry, every tag and corner", "why_tests_cant": "geometry must hold for all sizes, tests use 6x6", "anchors": ["yac/lib/util/aprilgrid.cpp: object_point, grid_index, center", "yac/lib/calib_params.cpp: fiducial_corners_t"]}
{"id": "C11", "title": "Out-of-range tag ids are rejected before anything is stored", "statement": "object_point / add throw for every tag id outside [0, rows*cols) and for every corner index outside 0..3, and no memory outside the grid's storage is written.", "quantifier": "every integer tag id and corner index", "why_tests_cant": "boundary id rows*cols is exactly the case a random test misses; the effect is an out of bounds write", "anchors": ["yac/lib/util/aprilgrid.cpp: grid_index, object_point, add, has, keypoint, remove"]}
{"id": "C12", "title": "AprilGrid file round trip", "statement": "Loading the file written by save into a default-constructed grid gives a grid with the same timestamp, dimensions, corners, keypoints and counter (numbers taken as exactly printed).", "quantifier": "every reachable grid, detected or not", "why_tests_cant": "all grids, in particular empty ones", "anchors": ["yac/lib/util/aprilgrid.cpp: save, load"]}
{"id": "C13", "title": "fully_observable means every corner is present", "statement": "On histories that never add a present corner twice, fully_observable() is true iff every one of the rows*cols*4 corners is present.", "quantifier": "every reachable grid", "why_tests_cant": "counter-based shortcut", "anchors": ["yac/lib/util/aprilgrid.cpp: fully_observable"]}
{"id": "C14", "title": "Detector output is all-or-nothing and in range", "statement": "detect returns an empty grid or one built only from good tags with id below rows*cols lying inside the image border, with at least the configured minimum number of corners; ids outside the grid are never added.", "quantifier": "every list of raw tag detections from either detector backend", "why_tests_cant": "raw detections cannot be enumerated by images", "anchors": ["yac/lib/util/aprilgrid.cpp: aprilgrid_detector_t::detect, aprilgrid_detect_thread"]}
{"id": "C15", "title": "Parallel detection is schedule independent", "statement": "detect over a map of images returns, for every camera whose image has a detection, exactly the grid obtained by running that camera's detection alone, for every interleaving of the worker threads.", "quantifier": "every schedule of the worker threads, every set of cameras", "why_tests_cant": "a test observes one schedule", "anchors": ["yac/lib/util/aprilgrid.cpp: aprilgrid_detector_t::detect(map)"]}
{"id": "C16", "title": "Timeline returns the events of a timestamp in insertion order", "statement": "After any sequence of adds, get_events(ts) is the sub-sequence of added events with that timestamp in insertion order, nb_events(ts) is its length, and timestamps is the strictly ascending set of all added timestamps; no event is lost or duplicated.", "quantifier": "every sequence of adds, every timestamp", "why_tests_cant": "ordering among equal timestamps over all histories", "anchors": ["yac/lib/util/timeline.cpp: timeline_t::add, nb_events, get_events"]}
{"id": "C17", "title": "Ordered set keeps first-insertion order without duplicates", "statement": "After any sequence of insert/clear, iteration gives the distinct items since the last clear in order of first insertion; count and size agree with it.", "quantifier": "every sequence of operations", "why_tests_cant": "all histories", "anchors": ["yac/lib/util/data.hpp: ordered_set_t"]}
{"id": "C18", "title": "Vector helpers: slice, extend, pop_front", "statement": "slice(v,m,n) is elements m..n inclusive when 0<=m<=n<size; extend appends; pop_front removes the first element and keeps the order of the remaining ones.", "quantifier": "every vector and indices", "why_tests_cant": "order violation appears only with at least three elements", "anchors": ["yac/lib/util/data.hpp: slice, extend, pop_front"]}
{"id": "C19", "title": "Set helpers compute the set operations", "statement": "set_union, set_diff and set_symmetric_diff on ascending duplicate-free inputs return the union, difference and symmetric difference, ascending and duplicate free; intersection returns exactly the elements contained in all given vectors.", "quantifier": "every list of vectors, with or without repeated elements", "why_tests_cant": "repeated elements break counting", "anchors": ["yac/lib/util/data.hpp: set_union, set_diff, set_symmetric_diff, intersection"]}
{"id": "C20", "title": "Solver parameter/residual bookkeeping stays consistent", "statement": "In every state reachable through add_param / add_residual / remove_residual / remove_param that did not throw, the residual-to-parameter and parameter-to-residual tables are mutually inverse and refer only to registered objects, and removing a parameter removes exactly its residuals.", "quantifier": "every operation history of both solver back ends", "why_tests_cant": "stale cross references only appear after particular removal orders", "anchors": ["yac/lib/solver.cpp: solver_t::add_param, add_residual, remove_param, remove_residual", "yac/lib/solver.cpp: ceres_solver_t"]}
{"id": "C21", "title": "Removing parameters never depends on removal order", "statement": "Removing any two registered parameters that share residuals succeeds in either order and ends in the same state.", "quantifier": "all pairs of parameters and all residual sets", "why_tests_cant": "needs shared residuals and two removals", "anchors": ["yac/lib/solver.cpp: solver_t::remove_param, ceres_solver_t::remove_param"]}
{"id": "C22", "title": "Jacobian columns of different parameters never overlap", "statement": "The column layout used by the solver assigns to the non-fixed registered parameters pairwise disjoint column ranges of the parameter's tangent size which together cover exactly the columns of the system, poses first, then speed-bias, cameras, extrinsics, fiducials.", "quantifier": "every set of registered parameters of all parameter types", "why_tests_cant": "parameter type mix", "anchors": ["yac/lib/solver.cpp: yac_solver_t::_eval_residuals / _calculate"]}
{"id": "C23", "title": "Normal equations are those of the weighted least squares problem", "statement": "The Hessian assembled from residual blocks equals J^T J and the right-hand side equals -J^T r for the stacked Jacobian and residual; it is symmetric and positive semidefinite.", "quantifier": "every residual set and sizes", "why_tests_cant": "universally quantified algebra", "anchors": ["yac/lib/solver.cpp: _form_hessian"]}
{"id": "C24", "title": "Levenberg-Marquardt never accepts a worse estimate", "statement": "On return from LM the cost is at most the initial cost, a rejected step (including a non-finite one) restores every parameter exactly, and the number of iterations never exceeds the configured maximum.", "quantifier": "every cost function, every step oracle (including non-finite values), every iteration budget", "why_tests_cant": "depends on run-time numerics", "anchors": ["yac/lib/solver.cpp: _solve_lm"]}
{"id": "C25", "title": "Gauss-Newton behaviour on cost increase", "statement": "Gauss-Newton performs at most max_iter updates and its returned cost is never above the initial one.", "quantifier": "every cost function and step oracle", "why_tests_cant": "run-time numerics", "anchors": ["yac/lib/solver.cpp: _solve_gn"]}
{"id": "C26", "title": "Camera chain stores symmetric inverse extrinsics", "statement": "After building the chain from any camera data, contains(i,j) is symmetric, and whenever an extrinsic i->j is stored its reverse j->i is its inverse.", "quantifier": "every set of camera measurements", "why_tests_cant": "all camera graphs", "anchors": ["yac/lib/calib_camera.cpp: camchain_t"]}
{"id": "C27", "title": "Camera chain finds an extrinsic for every connected pair", "statement": "find(i,j) succeeds for every two cameras connected through a chain of overlapping views and the transform is the composition along a path; it fails for unconnected cameras.", "quantifier": "every camera graph", "why_tests_cant": "chains longer than one edge are rarely exercised", "anchors": ["yac/lib/calib_camera.cpp: camchain_t::find"]}
{"id": "C28", "title": "View outlier filtering removes exactly the threshold violators", "statement": "filter_view removes exactly the residuals whose reprojection error exceeds the threshold, returns their number, and never touches the others.", "quantifier": "every view, thresholds, residual values", "why_tests_cant": "all residual values", "anchors": ["yac/lib/calib_camera.cpp: calib_view_t::filter_view, delete_reproj_errors"]}
{"id": "C29", "title": "Adding then removing a view restores the problem", "statement": "remove_view(ts) after add_view of a new timestamp restores the sets of views, poses, parameters and residuals registered in the solver, and the two are always in one-to-one correspondence.", "quantifier": "every history of add_view/remove_view with any timestamps", "why_tests_cant": "all histories incl. repeated timestamps", "anchors": ["yac/lib/calib_camera.cpp: calib_camera_t::add_view, remove_view, remove_all_views"]}
{"id": "C30", "title": "A rejected next-best-view leaves the calibration unchanged", "statement": "If add_nbv_view returns false then camera parameters, extrinsics, views, poses and solver contents are what they were before the call.", "quantifier": "every problem state and every candidate view", "why_tests_cant": "reject path after partial mutation", "anchors": ["yac/lib/calib_camera.cpp: calib_camera_t::add_nbv_view"]}
{"id": "C31", "title": "NBV information gain test uses the previous best as baseline", "statement": "A view is kept only if its information exceeds the stored baseline by more than the threshold, and the baseline never decreases.", "quantifier": "every sequence of candidate views", "why_tests_cant": "history property", "anchors": ["yac/lib/calib_camera.cpp: add_nbv_view"]}
{"id": "C32", "title": "Fixed extrinsics stay fixed through initialisation", "statement": "A parameter the user marked fixed is still fixed and has the same value after the calibration's initialisation phase.", "quantifier": "every camera configuration", "why_tests_cant": "state spread over phases", "anchors": ["yac/lib/calib_camera.cpp: _initialize_intrinsics, _initialize_extrinsics"]}
{"id": "C33", "title": "Timestamp decomposition round trip", "statement": "tsform(tsdecomp(ts)) = ts for every 64-bit nanosecond timestamp representable as signed, with 0 <= nsec < 1e9.", "quantifier": "all timestamps", "why_tests_cant": "2^63 inputs", "anchors": ["yac/lib/util/core.cpp: tsdecomp, tsform"]}
{"id": "C34", "title": "Timestamp merging for interpolation", "statement": "lerp_timestamps(t0,t1) returns exactly the timestamps it documents: the sorted target stamps between consecutive reference stamps, independent of the argument order of sampling rates.", "quantifier": "all pairs of timestamp sequences", "why_tests_cant": "all interleavings of two streams", "anchors": ["yac/lib/util/core.cpp: lerp_timestamps"]}
{"id": "C35", "title": "Interpolated samples lie between their neighbours", "statement": "lerp_data produces one sample per requested timestamp with value on the segment between the surrounding samples and never reads outside the buffers.", "quantifier": "all sequences of timestamps", "why_tests_cant": "unsigned arithmetic wrap-around and boundary stamps", "anchors": ["yac/lib/util/core.cpp: lerp_data"]}
{"id": "C36", "title": "closest_poses / interp_poses select by absolute time difference", "statement": "closest_poses returns for each requested time the pose whose timestamp is nearest; interp_poses returns one interpolated pose per requested time inside the covered interval; neither reads past the end of its input.", "quantifier": "all ascending timestamp sequences", "why_tests_cant": "unsigned subtraction and end of buffer", "anchors": ["yac/lib/util/core.cpp: closest_poses, interp_poses"]}
{"id": "C37", "title": "IMU buffer trimming keeps what integration needs", "statement": "trim(ts) keeps exactly the samples at or after ts plus the one sample immediately before, in order, keeps timestamps, accel and gyro aligned, and never empties a buffer that covers ts.", "quantifier": "all buffers and cut times", "why_tests_cant": "all positions of cut", "anchors": ["yac/lib/util/core.hpp: imu_data_t::trim"]}
{"id": "C38", "title": "IMU interval extraction", "statement": "extract(t0,t1) on an ascending buffer covering [t0,t1] returns samples starting exactly at t0 and ending exactly at t1, strictly ascending, with linearly interpolated end samples, and leaves in the buffer everything needed for the next call starting at t1.", "quantifier": "all ascending buffers and intervals", "why_tests_cant": "interpolation at arbitrary fractions; uninitialised values look plausible in a test", "anchors": ["yac/lib/util/core.hpp: imu_data_t::extract"]}
{"id": "C39", "title": "Little-endian integer decoding", "statement": "int8/uint8/int16/uint16/sint32/uint32 return the two's complement / unsigned little-endian value of the bytes at the offset and depend on no other byte.", "quantifier": "all byte arrays and offsets", "why_tests_cant": "2^32 values", "anchors": ["yac/lib/util/data.cpp: int8, uint8, int16, uint16, sint32, uint32"]}
{"id": "C40", "title": "CSV numeric files are read back as written", "statement": "csv2mat applied to the text produced by mat2csv yields the same matrix for all shapes including a single column.", "quantifier": "all matrices", "why_tests_cant": "all shapes", "anchors": ["yac/lib/util/data.cpp: csv_rows, csv_cols, csv2mat, mat2csv"]}
{"id": "C41", "title": "Array lines are parsed within bounds", "statement": "parse_iarray_line / parse_darray_line return exactly the count-prefixed values and never write outside the returned allocation.", "quantifier": "all lines", "why_tests_cant": "memory error invisible to value checks", "anchors": ["yac/lib/util/data.cpp: parse_iarray_line, parse_darray_line, csv_data"]}
{"id": "C42", "title": "Jacobian check reports success only for matching matrices", "statement": "check_jacobian returns 0 only if the two matrices have the same non-empty shape and all entries differ by less than the threshold.", "quantifier": "all matrices and thresholds", "why_tests_cant": "the checker is itself the test oracle", "anchors": ["yac/lib/util/data.cpp: check_jacobian"]}
{"id": "C43", "title": "Matrix <-> vector packing round trips", "statement": "load_matrix(load_matrix(A)) = A for every matrix unpacked into an empty vector, and the layout is the documented one.", "quantifier": "all matrices", "why_tests_cant": "all shapes", "anchors": ["yac/lib/util/core.cpp: load_matrix, mat2vec, vecs2mat"]}
{"id": "C44", "title": "Path helpers", "statement": "path_split returns the non-empty components, paths_join(a,b) resolves leading .. components, dir_name(p) is the parent directory, and parse_fext / remove_ext split a name at its last dot without throwing.", "quantifier": "all strings", "why_tests_cant": "all strings incl. without separators", "anchors": ["yac/lib/util/fs.cpp: path_split, paths_join, dir_name, parse_fname, parse_fext, remove_ext, strip, strip_end"]}
{"id": "C45", "title": "Configuration vectors and matrices have the declared size", "statement": "Parsing a fixed-size vector or matrix throws unless the YAML node has exactly that many values; a matrix with rows/cols fields is accepted only if rows*cols equals the number of values.", "quantifier": "all YAML nodes", "why_tests_cant": "all wrong sizes", "anchors": ["yac/lib/util/config.hpp: yaml_check_vector, yaml_check_matrix", "yac/lib/util/config.cpp: parse"]}
{"id": "C46", "title": "Rigid transforms compose and invert", "statement": "tf_inv(tf(C,r)) is the two-sided inverse of tf(C,r) for every rotation C, rotation matrices from unit quaternions, Euler angles and axis rotations are orthonormal with determinant one, and transforming a point composes with matrix product.", "quantifier": "all rotations, vectors", "why_tests_cant": "continuum of inputs", "anchors": ["yac/lib/util/core.cpp: tf, tf_inv, tf_point, quat2rot, rotx, roty, rotz, euler321, euler123, rvec2rot"]}
{"id": "C47", "title": "Quaternion multiplication matrices", "statement": "quat_lmul(q)*p = q*p = quat_rmul(p)*q, also for the x-y-z-w ordered variants used by the pose parameterisation, unit quaternions multiply to unit quaternions, and quat2rot is a homomorphism on unit quaternions.", "quantifier": "all quaternions", "why_tests_cant": "continuum", "anchors": ["yac/lib/util/core.cpp: quat_lmul, quat_rmul, quat2rot", "yac/lib/util/ceres_utils.cpp: plus, oplus"]}
{"id": "C48", "title": "Pose updates keep a valid pose and compose with differences", "statement": "Pose plus keeps the quaternion unit norm, a zero update is the identity, PlusJacobian and lift_pose_jacobian are mutually (left) inverse.", "quantifier": "all poses and updates", "why_tests_cant": "continuum", "anchors": ["yac/lib/calib_params.cpp: pose_t::plus", "yac/lib/util/ceres_utils.cpp: PoseLocalParameterization::Plus, PlusJacobian, lift_pose_jacobian"]}
{"id": "C49", "title": "Angle wrapping lands in the documented interval", "statement": "wrap180 returns an angle in [-180,180) and wrap360 one in [0,360), congruent to the input modulo 360.", "quantifier": "all real angles", "why_tests_cant": "continuum, negative side", "anchors": ["yac/lib/util/core.cpp: wrap180, wrap360"]}
{"id": "C50", "title": "Planar geometry helpers", "statement": "closest_point returns the point of the line nearest to the query, cross_track_error returns the distance to the line, intersect_circles returns only points on both circles.", "quantifier": "all points, lines and circles", "why_tests_cant": "continuum", "anchors": ["yac/lib/util/core.cpp: closest_point, cross_track_error, intersect_circles, point_left_right"]}
{"id": "C51", "title": "Descriptive statistics", "statement": "median of a non-empty vector has at least half of the values on each side, mean/var/stddev/rmse satisfy their textbook identities, and binomial(n,k) is the binomial coefficient for 0<=k<=n.", "quantifier": "all vectors", "why_tests_cant": "all inputs", "anchors": ["yac/lib/util/core.cpp: median, mean, var, stddev, rmse, binomial"]}
{"id": "C52", "title": "Camera projection accepts exactly the points in front of the camera and inside the image", "statement": "project returns success iff the point has positive depth and the distorted pixel is inside the image [0,w)x[0,h); both distortion models agree on that rule.", "quantifier": "all points, intrinsics, resolutions", "why_tests_cant": "continuum and boundaries", "anchors": ["yac/lib/util/cv.cpp: pinhole_project, pinhole_radtan4_project, pinhole_equi4_project"]}
{"id": "C53", "title": "Analytic projection Jacobians are the derivatives of the projection", "statement": "Every entry of project_jacobian, point jacobian and params jacobian of pinhole, radtan4 and equi4 is the partial derivative of the corresponding projected pixel coordinate.", "quantifier": "all points with non-zero depth (and radius), all parameters", "why_tests_cant": "finite differences only sample", "anchors": ["yac/lib/util/cv.cpp: project_jacobian, radtan4_point_jacobian, radtan4_params_jacobian, equi4_point_jacobian, equi4_params_jacobian, pinhole_*_jacobian"]}
{"id": "C54", "title": "Distortion model is total around the optical axis", "statement": "equi4 undistortion and Jacobians are defined (finite) at the image centre, where distortion itself returns the point.", "quantifier": "points on the optical axis", "why_tests_cant": "measure-zero input", "anchors": ["yac/lib/util/cv.cpp: equi4_distort, equi4_undistort, equi4_point_jacobian"]}
{"id": "C55", "title": "Marginalisation preserves the solution for the remaining variables", "statement": "The Schur complement system (H*, b*) has as solution the remaining part of every solution of the full system, and stays symmetric.", "quantifier": "all symmetric systems with invertible marginal block", "why_tests_cant": "algebraic", "anchors": ["yac/lib/util/core.cpp: schurs_complement", "yac/lib/calib_residuals.cpp: marg_residual_t"]}
{"id": "C56", "title": "Robust loss weights", "statement": "Blake-Zisserman loss is increasing, starts at its documented value with unit slope bounded by one, and its reported derivatives are the derivatives of the value.", "quantifier": "all non-negative squared errors", "why_tests_cant": "continuum", "anchors": ["yac/lib/calib_loss.cpp: BlakeZissermanLoss::Evaluate"]}
{"id": "C57", "title": "NBV reached only when the target is actually aligned", "statement": "nbv_reached returns true only if at least one corner is shared between target view and current view and the mean pixel distance over the shared corners is at most the threshold.", "quantifier": "all grids, thresholds", "why_tests_cant": "empty overlap gives NaN comparisons", "anchors": ["yac/lib/calib_nbv.cpp: nbv_reached"]}
{"id": "C58", "title": "NBV pose sets have the documented size and targets are visible", "statement": "The initial pose set has exactly four poses, the NBV pose grid has the product of the range counts, and the NBV target grid contains exactly the corners that project into the image.", "quantifier": "all targets and camera geometries", "why_tests_cant": "all configurations", "anchors": ["yac/lib/calib_nbv.cpp: calib_init_poses, calib_nbv_poses, nbv_target_grid, calib_target_origin"]}
{"id": "C59", "title": "linspace endpoints and count", "statement": "linspace(a,b,n) has n elements (n>=1), starts with a, ends with b for n>=2, and is evenly spaced.", "quantifier": "all a,b,n", "why_tests_cant": "all n", "anchors": ["yac/lib/util/core.hpp: linspace"]}
{"id": "C60", "title": "Key point selection", "statement": "sort_keypoints returns a permutation prefix ordered by response, of length min(limit,n) (all if limit is 0); grid_fast/grid_good terminate and return at most the requested number of key points.", "quantifier": "all keypoint lists, image sizes and grid sizes", "why_tests_cant": "non-divisible sizes, more cells than pixels", "anchors": ["yac/lib/util/cv.cpp: sort_keypoints, grid_fast, grid_good"]}
{"id": "C61", "title": "Seconds as floating point numbers", "statement": "sec2ts(ts2sec(ts)) = ts for every timestamp.", "quantifier": "all timestamps", "why_tests_cant": "rounding of double arithmetic depends on magnitude", "anchors": ["yac/lib/util/core.cpp: sec2ts, ts2sec, ns2sec"]}
{"id": "C62", "title": "Synchronising two signals", "statement": "lerp_data(ts0, vs0, ts1, vs1) leaves both signals with the same timestamps: those of the faster signal inside the common time range, the faster signal with its own values and the slower one with its piecewise linear interpolant.", "quantifier": "all pairs of ascending signals", "why_tests_cant": "all interleavings of two streams, streams ending at different times", "anchors": ["yac/lib/util/core.cpp: lerp_data, align_front, align_back"]}
{"id": "C63", "title": "Configuration look-ups: missing and present keys", "statement": "parse of a missing optional key returns -1 and leaves the variable unchanged, parse of a missing mandatory key throws, and a present key yields exactly the values in the file whatever the variable held before.", "quantifier": "all YAML trees, keys and previous values", "why_tests_cant": "all documents and prior states", "anchors": ["yac/lib/util/config.hpp: parse, yaml_get_node", "yac/lib/util/config.cpp: parse, yaml_has_key"]}
{"id": "C64", "title": "Look-at camera poses", "statement": "lookat(position, target, up) returns the rigid transform of a camera placed at position, whose z axis points to the target, whose x axis is perpendicular to up and whose y axis points up, for every target not on the up axis through the position.", "quantifier": "all positions, targets and up axes", "why_tests_cant": "continuum and degenerate directions", "anchors": ["yac/lib/util/core.cpp: lookat"]}
{"id": "C65", "title": "Latitude/longitude helpers are consistent", "statement": "Applying latlon_offset and measuring the displacement with latlon_diff gives the offset back (north stays north, in metres), and latlon_dist is a symmetric distance.", "quantifier": "all coordinates and offsets", "why_tests_cant": "continuum", "anchors": ["yac/lib/util/core.cpp: latlon_offset, latlon_diff, latlon_dist"]}
{"id": "C66", "title": "sinc, circle and sphere points", "statement": "sinc is sin(x)/x with value one at zero, circle and sphere return points at the requested radius with the documented angles.", "quantifier": "all arguments", "why_tests_cant": "continuum, removable singularity", "anchors": ["yac/lib/util/core.cpp: sinc, circle, sphere"]}
{"id": "C67", "title": "Random helpers and tolerant comparison", "statement": "randi(ub,lb) and randf(ub,lb) return values between lb and ub for every value of the generator; fltcmp/sign are a three-way comparison with tolerance 1e-4.", "quantifier": "all bounds and all generator outputs", "why_tests_cant": "all inputs", "anchors": ["yac/lib/util/core.cpp: randi, randf, fltcmp, sign"]}
{"id": "C68", "title": "Undistortion inverts distortion", "statement": "Back-projecting the pixel a point projects to gives the viewing ray of that point, and undistorting a pixel gives the pixel of the undistorted camera, for both distortion models.", "quantifier": "all cameras and visible points", "why_tests_cant": "iterative solver, continuum of cameras and pixels", "anchors": ["yac/lib/util/cv.cpp: radtan4_undistort, equi4_undistort, pinhole_radtan4_back_project, pinhole_equi4_back_project, pinhole_radtan4_undistort, pinhole_equi4_undistort"]}
{"id": "C69", "title": "Marginalisation leaves an equivalent prior", "statement": "When variables are marginalised out of a least squares problem, the squared norm of the prior residual that replaces them equals, up to a constant, the minimum of the linearised cost over the marginalised variables, for every change of the remaining ones; every parameter owns its own columns of the system, marginalised parameters first, and the system is the Gauss-Newton system of the residuals.", "quantifier": "all residual sets, parameter sets and updates", "why_tests_cant": "linear algebra over all problem sizes and rank deficiencies", "anchors": ["yac/lib/calib_residuals.cpp: marg_residual_t::form_hessian, schurs_complement, marginalize, EvaluateWithMinimalJacobians"]}
{"id": "C70", "title": "Lissajous trajectories are consistent motions", "statement": "For every Lissajous trajectory the reported velocity, acceleration and angular velocity are the time derivatives of the reported pose, the camera stays on a sphere around the target centre in front of and facing the target, the motion starts and ends at rest at the same pose, unknown types and times outside the trajectory are rejected, and the saved IMU file contains the same quantities.", "quantifier": "all trajectory types, target sizes, durations and times", "why_tests_cant": "finite differences only sample the continuum", "anchors": ["yac/lib/calib_nbt.cpp: lissajous_traj_t, nbt_lissajous_trajs"]}
{"id": "C71", "title": "The next best trajectory is the best one", "statement": "nbt_find returns the index of the candidate trajectory with the smallest estimated covariance determinant if that one improves on the current calibration, and -1 if none does; a trajectory that could not be evaluated is never selected.", "quantifier": "all candidate lists and evaluation results", "why_tests_cant": "all outcomes of all evaluations", "anchors": ["yac/lib/calib_nbt.cpp: nbt_find"]}
{"id": "C72", "title": "Simulation stays inside the trajectory", "statement": "Every query at a time stamp in [ts_start, ts_end] is accepted, and the simulation loops of the NBT evaluation visit exactly ts_start + k dt up to the end without raising an error.", "quantifier": "all int64 time stamps and rates", "why_tests_cant": "floating point rounding depends on the magnitude of the time stamps", "anchors": ["yac/lib/calib_nbt.cpp: lissajous_traj_t::get_pose, simulate_cameras, simulate_imu, nbt_eval"]}
{"id": "C73", "title": "Residual Jacobians are the derivatives of the residuals", "statement": "Every cost function given to the solver reports the weighted error of its measurement, and the Jacobians it reports (minimal, and full ones after reduction by the pose parameterisation) are the derivatives of that error with respect to every parameter block; where the measurement is not valid its Jacobians are zero.", "quantifier": "all poses, camera parameters, calibration points, measurements and weights", "why_tests_cant": "derivatives over a continuum; finite-difference tests sample it", "anchors": ["yac/lib/calib_residuals.cpp: reproj_residual_t, fiducial_residual_t, mocap_residual_t, pose_prior_t, prior_t", "yac/lib/ceres_utils.cpp: lift_pose_jacobian"]}
{"id": "C74", "title": "Interpolating orientations and poses", "statement": "Interpolating between two orientations (or poses) at parameter alpha gives the first at 0, the second at 1, and in between a proper rotation reached from the first by alpha times the rotation angle about the fixed axis that separates them, along the shorter way; positions are interpolated linearly.", "quantifier": "all non-zero quaternions, all rigid poses, all parameters and time stamps", "why_tests_cant": "a geometric identity over a continuum of inputs, with branch switches", "anchors": ["yac/lib/util/core.cpp: slerp, interp_pose, lerp_pose"]}
{"id": "C75", "title": "Continuous trajectories pass through their way points consistently", "statement": "A continuous trajectory built from way points returns way point i at its time stamp, and the velocity, acceleration and angular velocity it reports are the derivatives of the position, velocity and orientation it returns.", "quantifier": "all way points, all time stamps in the trajectory", "why_tests_cant": "interpolation and derivatives over a continuum, angle wrap-around", "anchors": ["yac/lib/util/core.cpp: ctraj_init, ctraj_get_pose, ctraj_get_velocity, ctraj_get_acceleration, ctraj_get_angular_velocity"]}
{"id": "C76", "title": "The simulated IMU measures what it should", "statement": "sim_imu_measurement turns the pose, angular velocity and acceleration of the sensor into the gyroscope and accelerometer readings in the sensor frame (gravity reaction included), disturbed by the configured noise, and raises an error exactly when the sample times disagree with the configured rate.", "quantifier": "all poses, motions, noise parameters, random numbers and time stamps", "why_tests_cant": "readings depend on the pose, the random sequence and the call history", "anchors": ["yac/lib/util/core.cpp: sim_imu_measurement, sim_imu_reset", "yac/lib/util/core.hpp: sim_imu_t"]}
{"id": "C77", "title": "The circular simulation is one consistent rigid motion", "statement": "The simulated camera and IMU data of vio_sim_data_t / calib_sim_data_t belong to one rigid body driving at constant speed once around the circle: poses are sampled at the camera and IMU rate for one round, reported velocities, accelerometer and gyroscope values are the derivatives of those poses, each frame lists exactly the visible features with their pixel positions, the features lie on the four walls, and the timeline holds every event once in time order.", "quantifier": "all circle radii, random sequences and sample indices", "why_tests_cant": "every sample of every radius must be consistent; tests look at plots", "anchors": ["yac/lib/calib_sim.cpp: vio_sim_data_t, calib_sim_data_t, create_3d_features_perimeter", "yac/lib/calib_sim.hpp"]}
{"id": "C78", "title": "Euler angles describe the rotation they were computed from", "statement": "The roll, pitch and yaw returned for a unit quaternion lie in (-pi,pi], [-pi/2,pi/2], (-pi,pi], and rotating by them (roll about x, then pitch about y, then yaw about z) gives back the rotation of the quaternion; they are the only such angles away from the vertical pitch.", "quantifier": "all unit quaternions", "why_tests_cant": "the quadrant logic and the singularity depend on the exact values", "anchors": ["yac/lib/util/core.cpp: quat2euler, euler321"]}
{"id": "C79", "title": "Gravity alignment", "statement": "vecs2rot(a, g) is a rotation turning the direction of a into the direction of g, and imu_init_attitude returns a rotation without yaw that turns the mean measured acceleration into the upward vertical.", "quantifier": "all vectors, all IMU buffers and buffer sizes", "why_tests_cant": "includes parallel, opposite and vertical directions of measure zero", "anchors": ["yac/lib/util/core.cpp: vecs2rot, imu_init_attitude"]}
{"id": "C80", "title": "The fiducial orientation block changes only roll and pitch", "statement": "A fiducial parameter created from a pose represents that pose; adding and subtracting increments changes its roll and pitch by exactly these amounts and never its yaw or position, so undoing an increment restores the pose.", "quantifier": "all target poses and all histories of updates and queries", "why_tests_cant": "state is carried between calls; failures need a history", "anchors": ["yac/lib/calib_params.cpp: fiducial_t", "yac/lib/calib_params.hpp: FIDUCIAL_PARAMS_SIZE"]}
{"id": "C81", "title": "Noise added to a pose is bounded", "statement": "add_noise returns a rigid transform whose position differs by at most the position bound per axis and whose roll, pitch and yaw differ by at most the rotation bound from those of the given pose.", "quantifier": "all poses, bounds and random numbers", "why_tests_cant": "depends on the random numbers", "anchors": ["yac/lib/util/core.cpp: add_noise"]}
{"id": "C82", "title": "IMU propagation follows the equations of motion", "statement": "Propagating a state with a buffer of IMU samples answers exactly when the buffer covers the window; it leaves the state unchanged over an empty window, follows the exact kinematics for a sensor under constant force that does not turn, turns the orientation by the integral of a rate that is linear between samples, and returns a symmetric positive semidefinite covariance (definite for positive noise) and the Jacobian of the propagated state with respect to the initial one.", "quantifier": "all sample sequences with increasing stamps, windows, initial states, parameters", "why_tests_cant": "sampling pattern, window position and motion are unbounded; Jacobian and integral identities are over the reals", "anchors": ["yac/lib/calib_residuals.cpp: imu_residual_t::propagation"]}
{"id": "C83", "title": "The IMU residual is zero exactly for consistent states and its Jacobians are its derivatives", "statement": "The residual between two states vanishes exactly when the second is what the motion measured between them (shifted by the time delay) makes of the first, with equal biases; in particular exactly at the propagated state. The Jacobian blocks reported for the poses, speeds and biases are the derivatives of the residual, and the covariance behind its weight is invertible.", "quantifier": "all buffers, windows, delays, pairs of states and directions of perturbation", "why_tests_cant": "iff over infinite state space and derivatives in every direction", "anchors": ["yac/lib/calib_residuals.cpp: imu_residual_t::redoPreintegration", "yac/lib/calib_residuals.cpp: imu_residual_t::EvaluateWithMinimalJacobians"]}
{"id": "C84", "title": "The IMU residual is defined for every window and time delay", "statement": "Evaluating the residual never reads outside its buffer, whatever the estimated time delay; the delay acts exactly like shifting the clock of the samples.", "quantifier": "all buffers, windows and delays", "why_tests_cant": "out-of-range reads happen for delays an optimiser may propose but a test does not", "anchors": ["yac/lib/calib_residuals.cpp: imu_residual_t::EvaluateWithMinimalJacobians", "yac/lib/calib_residuals.cpp: imu_residual_t::redoPreintegration"]}
{"id": "C85", "title": "The online VI calibrator keeps a bounded, consistent window of views", "statement": "After any sequence of camera detections, IMU samples and solves, the optimisation problem holds exactly the reprojection residuals of the corners of the views in the window, one IMU residual between each pair of consecutive views and the prior left by marginalisation; every pose and speed/bias block in the problem belongs to a view in the window; the window never grows beyond its configured size; a view is added exactly when every camera has delivered a detection and an IMU sample arrives; no call has undefined behaviour and the failing calls are known; no detection is silently lost.", "quantifier": "all setups, all histories of detections, IMU samples and solve calls, every window size", "why_tests_cant": "the window invariant must survive every interleaving of camera and IMU callbacks and every number of marginalisations", "anchors": ["yac/lib/calib_vi.cpp: calib_vi_t::add_view", "yac/lib/calib_vi.cpp: calib_vi_t::marginalize", "yac/lib/calib_vi.cpp: calib_vi_t::add_measurement"]}
{"id": "C86", "title": "Every IMU residual of the VI calibrator covers the interval between its two views", "statement": "If detections and IMU samples arrive in time order, then the IMU residual between two consecutive views holds samples in rising order, taken from the IMU stream without a gap, that reach from the first view to the second, so that it can be evaluated.", "quantifier": "all chronological histories of detections, IMU samples and solves", "why_tests_cant": "the buffer is trimmed and copied at every view; a gap appears only for particular interleavings", "anchors": ["yac/lib/calib_vi.cpp: calib_vi_t::add_view", "yac/lib/calib_vi.cpp: calib_vi_t::initialize"]}
{"id": "C87", "title": "Parameters declared fixed in the VI calibrator are never changed", "statement": "Camera parameters, camera extrinsics, IMU extrinsics and the time delay that were added as fixed keep their values through the whole calibration, provided the solver leaves constant blocks alone.", "quantifier": "all setups, all histories", "why_tests_cant": "the flags must survive every path through views, marginalisation, solves and resets", "anchors": ["yac/lib/calib_vi.cpp: calib_vi_t::add_imu", "yac/lib/calib_vi.cpp: calib_vi_t::add_camera", "yac/lib/calib_vi.cpp: calib_vi_t::solve"]}
{"id": "C88", "title": "The VI calibrator's initial estimates reproduce what was measured", "statement": "When the first view is added, the sensor's attitude is the one whose gravity agrees with the mean accelerometer reading and the fiducial target is placed where the first camera sees it, unless the user has set the fiducial pose; for later views the initial pose is such that the first detecting camera sees the target exactly where the detection says.", "quantifier": "all setups, all IMU buffers and detections, all relative poses", "why_tests_cant": "an identity over all rigid transforms and buffers", "anchors": ["yac/lib/calib_vi.cpp: calib_vi_t::initialize", "yac/lib/calib_vi.cpp: calib_vi_t::estimate_sensor_pose", "yac/lib/calib_vi.cpp: calib_vi_t::add_view"]}
{"id": "C89", "title": "Resetting the VI calibrator removes what it has accumulated", "statement": "After reset the calibrator holds no view, no IMU sample, no detection and no residual, keeps the sensors and their parameters, and calibrating again behaves like a fresh calibrator.", "quantifier": "all setups, all histories before and after the reset", "why_tests_cant": "depends on the whole history before the reset", "anchors": ["yac/lib/calib_vi.cpp: calib_vi_t::reset"]}
{"id": "C90", "title": "Cost and Hessian of the VI calibrator describe its whole problem", "statement": "The reported cost is half the sum of squares of all residuals of the problem, and the Hessian the calibrator forms is the product J^T J of their Jacobian: every free parameter block that occurs in a residual owns its own columns, fixed blocks own none, and no column is unowned.", "quantifier": "all histories of detections, IMU samples and solves, all residual values and Jacobians, all orders in which the residuals are visited", "why_tests_cant": "depends on the whole history and on the addresses of the parameter objects", "anchors": ["yac/lib/calib_vi.cpp: calib_vi_t::cost", "yac/lib/calib_vi.cpp: calib_vi_t::eval_residuals", "yac/lib/calib_vi.cpp: calib_vi_t::form_hessian"]}
{"id": "C91", "title": "A speed-and-bias block has one meaning everywhere", "statement": "Velocity, accelerometer bias and gyroscope bias given to a speed-and-bias block are what its accessors return, what is written to the results file and read back from it, and what the IMU residual uses as velocity, accelerometer bias and gyroscope bias.", "quantifier": "all blocks, all IMU buffers and states", "why_tests_cant": "an agreement between five functions for every value", "anchors": ["yac/lib/calib_params.cpp: sb_params_t", "yac/lib/calib_residuals.cpp: imu_residual_t::EvaluateWithMinimalJacobians", "yac/lib/calib_vi.cpp: calib_vi_t::print_speed_biases"]}
{"id": "C92", "title": "Outlier rejection of the VI calibrator removes the outliers and nothing else", "statement": "Solving with outlier rejection removes from the problem and from every view exactly the corner detections whose reprojection error is larger than the chosen number of standard deviations of the view's errors, keeps all other detections, the IMU residuals and the prior, and solves the remaining problem again.", "quantifier": "all histories, all estimates and reprojection errors, all thresholds", "why_tests_cant": "depends on every combination of views, cameras and errors", "anchors": ["yac/lib/calib_vi.cpp: calib_vi_view_t::filter_view", "yac/lib/calib_vi.cpp: calib_vi_view_t::get_reproj_errors", "yac/lib/calib_vi.cpp: calib_vi_t::solve"]}
{"id": "C93", "title": "Motion-capture poses are synchronised with the camera frames", "statement": "Every camera frame inside the motion-capture recording, and no other, is given exactly one body pose: the one interpolated, at the frame's time, between the two recorded poses just before and just after it with the time offset applied; a frame taken at the time of a recorded pose gets that pose, and a recording without common time span is reported as such.", "quantifier": "all recordings, frames, rates, time offsets and motions", "why_tests_cant": "depends on how the two sequences of stamps interleave", "anchors": ["yac/lib/calib_data.cpp: lerp_body_poses", "yac/lib/util/core.cpp: lerp_pose"]}
{"id": "C94", "title": "The camera extrinsics are initialised from the motion-capture data", "statement": "When a motion-capture calibration is loaded, the extrinsics between the tracked body and the camera start from a frame in which the target's pose can be estimated, so that exact data gives the exact extrinsics and zero residuals; the camera, the target pose and every body pose start at the values given, and a recording without any usable frame or with fewer poses than frames is reported.", "quantifier": "all recordings, target poses, camera parameters and pose estimators", "why_tests_cant": "depends on which frames allow an estimate and on the exact poses", "anchors": ["yac/lib/calib_mocap.cpp: calib_mocap_t::calib_mocap_t, _add_mocap_camera_extrinsics, mocap_view_t::get_residuals"]}
{"id": "C95", "title": "A motion-capture calibration keeps its views and its problem consistent", "statement": "After solve() or solve_nbv() the problem contains exactly the residuals of the measurements in use and the parameters they refer to, the views are among the recorded frames, and both may be called again, in any order.", "quantifier": "all recordings, solvers, information measures, shuffles, configurations and sequences of calls", "why_tests_cant": "a history property: it must hold after any number of accepted, rejected and filtered views", "anchors": ["yac/lib/calib_mocap.cpp: calib_mocap_t::solve, solve_nbv, _add_view, _remove_view, _filter_all_views"]}
{"id": "C96", "title": "Next-best-view keeps a motion-capture view only if it brings enough information", "statement": "After the minimum number of views, solve_nbv() keeps a further view exactly if its information gain over the views already kept exceeds the configured threshold, and so the number of views kept is bounded by the total information.", "quantifier": "all recordings, solvers, information measures, thresholds and orders of frames", "why_tests_cant": "depends on the information of every earlier subset of views", "anchors": ["yac/lib/calib_mocap.cpp: calib_mocap_t::solve_nbv, _calc_info"]}
{"id": "C97", "title": "A rejected motion-capture view leaves no trace", "statement": "When solve_nbv() rejects a view, all estimates, the information reference, the views and their measurements are what they were before the view was tried.", "quantifier": "all recordings, solvers, information measures, configurations and histories of views", "why_tests_cant": "quantifies over everything the optimiser may have changed in between", "anchors": ["yac/lib/calib_mocap.cpp: calib_mocap_cache_t, calib_mocap_t::_restore_estimates, _remove_view, solve_nbv"]}
{"id": "C98", "title": "Motion-capture outlier filtering removes exactly the outliers", "statement": "Filtering removes exactly the measurements whose residual deviates by more than the configured number of standard deviations, reports how many were removed, and keeps the remaining residuals consistent.", "quantifier": "all consistent states, measurements and thresholds", "why_tests_cant": "depends on the statistics of all residuals", "anchors": ["yac/lib/calib_mocap.cpp: calib_mocap_t::_filter_all_views, mocap_view_t::filter_view"]}
{"id": "C99", "title": "The saved motion-capture results describe the calibration", "statement": "The saved table of body poses has one row per calibrated frame, its header gives the number of rows, and parameters configured as fixed are saved exactly as they were given.", "quantifier": "all recordings, solvers, information measures, shuffles and configurations", "why_tests_cant": "must hold for any optimiser result and any set of rejected frames", "anchors": ["yac/lib/calib_mocap.cpp: calib_mocap_t::print_mocap_poses, solve, solve_nbv"]}
{"id": "C100", "title": "The estimated covariance is the block of the inverse information matrix", "statement": "solver_t::estimate_covariance marginalises every parameter that the residuals which could be evaluated depend on, that is not fixed and not asked for; if the marginal block is well conditioned, the result is the block of the parameters asked for, in the order given, of the inverse of J^T J for the Jacobian J of all those residuals: symmetric and positive definite. It fails if that matrix is singular, in particular if no residual depends on a parameter asked for.", "quantifier": "every set of residuals and Jacobians, every choice of parameters and of fixed parameters, every choice of eigenvectors by the eigen-solver", "why_tests_cant": "tests run one calibration problem; the statement is about all problems, and the failures (a parameter of a type without columns, weak information, a check that cancels) depend on the numbers", "anchors": ["yac/lib/solver.cpp: solver_t::estimate_covariance"]}
{"id": "C101", "title": "The covariance matrix is assembled from the solver library's blocks at the right places", "statement": "ceres_solver_t::estimate_covariance returns the matrix whose entry at the columns of two components of the parameters asked for is the covariance the library computed for them (the blocks below the diagonal are the transposes); it reports failure exactly when the library does or lacks a block, and writes nothing outside the matrix.", "quantifier": "every list of different parameters that are not fixed, all sizes, every covariance the library returns", "why_tests_cant": "tests look at one problem; the placement must be right for every combination of sizes, and goes wrong only if a fixed parameter is among them", "anchors": ["yac/lib/solver.cpp: ceres_solver_t::estimate_covariance"]}
{"id": "C102", "title": "The score of a candidate view is the uncertainty after adding it", "statement": "nbv_evaluator_t::eval returns the binary logarithm of the determinant of the covariance that the cameras and the estimated extrinsics would have with the residuals of all views and of the candidate view together (the poses marginalised), and infinity if that covariance does not exist.", "quantifier": "every set of views, residuals and Jacobians, every candidate view, every choice of eigenvectors and singular vectors by the library", "why_tests_cant": "tests evaluate a few views of one calibration; whether the columns of all parameters are right and the numbers mean what they should is a statement about all problems", "anchors": ["yac/lib/calib_camera.cpp: nbv_evaluator_t::eval, nbv_evaluator_t::form_param_order, nbv_evaluator_t::form_hessian, nbv_evaluator_t::estimate_log_det_covar"]}
{"id": "C103", "title": "The next best view is the best of the candidates, and the search leaves the problem alone", "statement": "find_nbv evaluates every candidate pose of every camera, each with exactly the problem as it was plus the candidate's view; it reports the camera, index and information of the candidate with the smallest information (the first of those) and returns 0 iff half the drop in information reaches the threshold, -2 otherwise; afterwards cameras, extrinsics, poses, views and the solver's parameters and residuals are what they were. find_nbv_fast selects in the same way by the scores of the evaluator.", "quantifier": "every history of the calibrator, every set of candidate poses, every simulated detection, every scheduling of the parallel loop", "why_tests_cant": "Whether the search restores the problem depends on the whole history of views and on the timestamps present; the parallel loop's race depends on the number of cameras and threads; the answer for non-negative scores is silently wrong only for some problems.", "anchors": ["yac/lib/calib_camera.cpp: calib_camera_t::find_nbv", "yac/lib/calib_camera.cpp: calib_camera_t::find_nbv_fast"]}
{"id": "C104", "title": "Outlier removal removes exactly the outliers, and judges each view by its information", "statement": "_remove_outliers judges every view (or only the latest, once) in turn: residuals outside the thresholds computed from all residuals are removed, the problem is solved with and without the view; the view stays, without its outliers, iff half the gain in information exceeds the threshold and is removed completely otherwise. Views not judged are unchanged, remaining views show nothing that was not there before, the estimates are put back to what they were before the call, and the returned count is the number of outliers of the views that stayed. _filter_all_views removes exactly the outliers of all views, with thresholds computed once, and returns their number.", "quantifier": "every history of the calibrator, all residual values, all thresholds, every result of the solver and of the information", "why_tests_cant": "A test sees one data set. Which views survive depends on residuals, solver results and the order in which the views are judged, and the estimates must be put back on every path.", "anchors": ["yac/lib/calib_camera.cpp: calib_camera_t::_remove_outliers", "yac/lib/calib_camera.cpp: calib_camera_t::_filter_all_views", "yac/lib/calib_camera.cpp: calib_camera_t::get_residuals"]}
{"id": "C105", "title": "Marginalising the oldest view of the camera calibrator replaces exactly that view by a prior", "statement": "At every point of every history of calls on the camera calibrator (adding, judging, removing, filtering and marginalising views, solving), the optimisation problem contains exactly the residuals of the current views plus at most one prior; the prior only concerns camera and extrinsics parameters that are estimated, never a pose. marginalize() removes exactly the view with the smallest timestamp, its pose, its residuals and the previous prior, and adds a prior about exactly the estimated parameters the removed residuals were about; everything else stays. The call is undefined when there is no view, when the oldest view has lost all its residuals, or when all those parameters are fixed. After the first marginalisation remove_all_views() always aborts.", "quantifier": "all calibrators, all histories of calls, all views and priors", "why_tests_cant": "The residuals to keep consistent depend on the whole history, and the failing cases need particular histories (all residuals of one view filtered, fixed parameters).", "anchors": ["yac/lib/calib_camera.cpp: calib_camera_t::marginalize, calib_view_t::marginalize, remove_view, remove_all_views", "yac/lib/calib_residuals.cpp: marg_residual_t::form_hessian"]}
{"id": "C106", "title": "Which frames next-best-view calibration considers, and in which order", "statement": "For every recorded data set, the frames the next-best-view calibration goes through are exactly the frames for which a camera pose can be estimated, except the first and the last of these, each once, ordered by number of detections (most first), then by how much the camera turned, then by how far it moved since the previous such frame; of frames equal in all three only the latest is kept. The turn is the rotation angle and the move the distance. Without any estimable frame the call is undefined; with one or two it aborts. The number of detections attributed to a frame is that of the frame at the same position in the full data set, which is a different frame as soon as an earlier frame has no pose.", "quantifier": "all data sets, all cameras, all pose estimates, all rotations and displacements", "why_tests_cant": "The order depends on all frames together, and the failing cases need data in which particular frames cannot be estimated or coincide.", "anchors": ["yac/lib/calib_camera.cpp: calib_camera_t::_calculate_motion, calib_camera_t::_solve_nbv", "yac/lib/calib_camera.hpp: motion_data_t"]}
{"id": "C107", "title": "Next-best-view calibration tries the candidates in order, stops early only as configured, and keeps the newest views of its window", "statement": "In calib_camera_t's next-best-view loop the candidates are tried in the given order. With early stopping the loop ends right after the first candidate that makes more than early_stop_threshold rejections in a row, and never before; without it every candidate is tried. At the end only views of the beginning and accepted candidates are left. With marginalization the number of views never exceeds sliding_window_size (or what it was before); without the outlier filter the views left are exactly the sliding_window_size newest of the initial and accepted ones (an accepted candidate older than a full window goes at once), without marginalization all of them, and the calibrator stays in a reachable state.", "quantifier": "every list of candidates, every acceptance decision, every outcome of the solver, PnP and outlier filter, every setting of window and thresholds", "why_tests_cant": "The number of turns, the pattern of acceptances and what the filter removes are unbounded.", "anchors": ["yac/lib/calib_camera.cpp: calib_camera_t::_solve_nbv (1799-1836), add_nbv_view, marginalize, _remove_outliers"]}
{"id": "C108", "title": "Pose and IMU files are read as written, character by character", "statement": "A pose file whose lines after the first say a time and a pose (decimal numbers separated by commas, with or without a final newline) is loaded as exactly these times and poses in order, by load_pose as the first of them or the identity; what save_poses writes is loaded with the same times, translations within half a unit of the sixth decimal and rotation entries within 5e-6; a line with too few numbers and a blank line anywhere are fatal. An IMU file with a header is loaded as exactly its samples, but what save_imu_data writes comes back without its first sample and with accelerations and angular velocities exchanged. Restoring camera poses changes only poses whose time is in the file, to the file's last pose for that time, and stops silently at a line with too few numbers.", "quantifier": "every file text of that form, every list of times and rigid poses or samples", "why_tests_cant": "Any number of lines of any length and any decimal notation, any numbers printed.", "anchors": ["yac/lib/util/data.cpp: save_poses, save_imu_data, load_pose, load_poses", "yac/lib/calib_data.cpp: load_imu_data", "yac/lib/calib_camera.cpp: calib_camera_t::_load_camera_poses", "yac/lib/util/fs.cpp: file_open, skip_line, file_rows"]}
{"id": "C109", "title": "The truncated solver returns the least squares step, of the poorly observable part the smallest", "statement": "truncated_solver_t::solve on a matrix whose columns before marg_idx are independent never leaves a residual these columns could reduce; the numerical rank it reports is the number of singular values above the tolerance. If no singular value was dropped that is not zero, the step minimises |A x - b|, its part from marg_idx on is the smallest of all minimising steps in units of the scaled columns, and it is the only minimising step if all columns are independent. The first call runs, and so does every call whose left part has its non-zeros where the previous one had them, or another number of them; with the same number in other places SuiteSparse gets a symbolic factorisation of another matrix. solver_t::estimate_log_det_covar reports the logarithm of the determinant of the calibration block of the covariance if everything is observable, whatever parameters it is asked about; a view that observes nothing is reported with a finite value. cholmod_convert there and back changes nothing but entries up to its tolerance, which become 0.", "quantifier": "every size and marg_idx, every real matrix and right hand side, every option, every previous call, every choice of factors by the libraries", "why_tests_cant": "A test solves one small system; optimality compares with every other step, and the reuse of the symbolic factorisation depends on the previous call.", "anchors": ["yac/lib/suitesparse.cpp: truncated_solver_t::solve, truncated_solver_t::analyze_marginal, reduceLeftHandSide, reduceRightHandSide, solveSVD, solveQR, columnScalingMatrix, estimateNumericalRank, cholmod_convert", "yac/lib/solver.cpp: solver_t::estimate_log_det_covar"]}
{"id": "C110", "title": "Loading the detected grids of a data set makes one view per time with a detected grid", "statement": "calib_camera_t::_load_views reads for every camera the files in grid0/camN whose first 19 characters are digits (or whose whole shorter name is digits); these say the time, and of several files of one camera for the same time the alphabetically last one counts. If every grid carries the time of its file name and the names are below 2^63, then afterwards: the times are the ones before and those of the files; calib_data holds, for each camera and time, the grid of the file, and without a file what it held before; the list of view times is extended, in ascending order and without repetition, by exactly the times at which some camera's grid was detected; the view of such a time holds exactly the grids of the files; and all other views are as before. Files with other names and missing directories are skipped silently. A name of 2^63 or more is not read as its time but as one before 1970, and two files whose contents carry the same other time give two entries for one view: both are refuted.", "quantifier": "all numbers of cameras, directories, file names and contents, calibrator states", "why_tests_cant": "a test has one well-formed directory; order, duplicates, missing directories and file contents vary without bound", "anchors": ["yac/lib/calib_camera.cpp: calib_camera_t::_load_views, calib_camera_t::add_view", "yac/lib/util/fs.cpp: list_files, list_dir"]}
{"id": "C111", "title": "The simulated frames of a trajectory show what the cameras would see from its poses", "statement": "simulate_cameras ends, if every camera is complete and the trajectory has a pose at all times between start and end, after frames at exactly ts_start, ts_start + dt, ts_start + 2 dt and so on up to ts_end. It ends early only with an exception: at the first of these times for which the trajectory has no pose, after all frames before it, or in the first frame if a camera lacks parameters or extrinsics. Each frame holds one grid per camera, stamped with the frame's time. The grid of a camera with extrinsics T_C0Ci contains exactly those corners of the target at T_WF which a camera at T_WC0 T_C0Ci, T_WC0 the trajectory's pose, projects successfully, at the projected pixels; it counts them, and it is marked as detected exactly if there is one. The timeline made of the simulated data has at every time the IMU sample of that time, if there is one, followed by the detected grids of that time in the order of the cameras, and no other events. nbt_eval uses the same pose for the simulated IMU and for the body; what the calibrator predicts for a camera is then what was simulated if and only if the IMU extrinsics are the identity.", "quantifier": "all targets, projections, rigid extrinsics, trajectories, time ranges and steps", "why_tests_cant": "a test evaluates one trajectory and one camera; visibility depends on every pose and projection", "anchors": ["yac/lib/calib_nbt.cpp: simulate_aprilgrid, simulate_cameras, nbt_create_timeline, nbt_eval"]}
