# Design

Formal model (Rocq / Coq 8.16.1) of `hubernikus/nonlinear_obstacle_avoidance`
(read as text in /repo; the python code is never run).

## 1. Trusted base

* Coq's kernel (checked again by `coqchk`).
* Standard-library axioms behind the classical reals. `Print Assumptions` lists, per theorem, a subset of
  `ClassicalDedekindReals.sig_forall_dec`, `ClassicalDedekindReals.sig_not_dec`,
  `FunctionalExtensionality.functional_extensionality_dep` and (for theorems which use `acos`/`atan`
  through the mean value theorem) `Classical_Prop.classic`. No axiom of our own. The purely
  discrete files (graphs, containers) are closed under the global context where no real number occurs.
* The reading of the code: every definition cites the file and lines it models.

### What the model abstracts, everywhere

* Floating point numbers are exact reals. Rounding and overflow are not modelled. What is
  modelled is the *tolerance tests* of the code (`np.isclose`, `np.allclose`, `1e-8 + 1e-5*|b|`), all branch conditions, division by
  zero and NaN: an operation that yields NaN/inf (0/0, x/0, fractional power of a negative number) is an
  error value (`Err ENaN`), never Coq's totalised result. Python exceptions are error values too.
* Vectors are lists of reals. Addition of lists of unequal length pads with zero, only so that the
  operation is total; numpy raises there, and the theorems about vectors quantify over vectors of equal dimension.
* `np.argsort` is not stable: where the code sorts, the theorem quantifies over every sorted
  permutation.
* Calls into other packages (`vartools`, `dynamic_obstacle_avoidance`: gamma functions, normals,
  reference points, pose transforms, linear systems, `get_orthogonal_basis`) are arguments of the model. What is assumed about them
  is a visible hypothesis in the theorem. One is modelled by its documented meaning:
  `vartools.math.get_intersection_between_line_and_plane` with `positive_only` is the point of the line
  on the plane if it lies in the positive direction (`line_plane` in `KMeansModel.v`).
  `get_angle_from_vector` and `get_vector_from_angle` (`vartools.directional_space`) are the logarithm and the
  exponential of the unit sphere around the first base vector; `get_intersection_with_circle` (`vartools.math`, type FAR)
  is the intersection of a line with a circle which lies farther in the given direction (`ProjModel.v`). `networkx.DiGraph` is a list of nodes and
  edges in order of insertion; a shortest path is any path without repetition (`networkx` in `PropHullCases.v`, with an instance).
  `np.argmin` of a list with several dictionaries raises a TypeError, of a single one it returns 0.

* Powers: `x ** p` is `Rpower` for x > 0; 0 ** p is 0, 1 or NaN by the sign of p; a negative base has
  integer powers only, every other one is NaN (`Pow.v`).

### Modelled code

| file | functions |
|------|-----------|
| `vector_rotation.py` | `rotate_direction`, `rotate_array`, `VectorRotationXd` (all methods), `directional_vector_addition`, `VectorRotationSequence` (all methods), `VectorRotationTree` (construction, queries, `reduce_weighted_to_sequence`, `get_weighted_mean`, `evaluate_all_orientations`, `rotate_weighted`) |
| `multi_obstacle_avoider.py` | `get_limited_weights_to_max_sum`, `compute_gamma_weights`, `compute_weights_from_distances`, `compute_tree_weight`, `compute_gamma_and_weights`, the weights of `evaluate_avoidance_from_sequence`, `compute_parent_occlusion_weight`, `evaluate_occlusion_array`, `compute_single_occlusion_weight`, the weights of `compute_occlusion_weights`, `compute_convergence_radiuses`, range check of `__init__`, `slowfactor_from_convergence`, `compute_multiobstacle_relative_velocity`, `_compute_normal_and_reference_of_branch`, `_simple_tangent_branch_update`, `simple_population_tangent_tree`, `evaluate_avoidance_from_sequence`, `evaluate_sequence` (`AvoidModel`: the convergence sequence is an argument; `ConvModel.avoider_evaluate`: complete), `vector_rotation_reduction`, `compute_convergence_sequence`, `compute_convergence_direction` (`evaluate_projected_weight` is an argument); `compute_averaged_normal_and_gamma` (`DescentModel`) |
| `avoidance/rotational_avoider.py` | `get_rotation_weight`, `compute_safe_scaling`, `compute_safe_magnitude`, `_limit_magnitude`, entry and exit of `avoid`, `get_projected_tangent_from_vectors` (`AvoidModel`, `ProjModel`); `get_smooth_continuation_weight`, `get_tangent_convergence_direction`, `get_pseudo_tangent`, `get_intermediate_convergence_direction`, `directional_convergence_summing`, complete `avoid`, `avoid_sequence` (`RotAvoidModel`). There `get_directional_weighted_sum` (vartools) is the exponential of the weighted mean of logarithms, the convergence velocity is one for all obstacles, importance weights, relative velocity and the second base vector are arguments; `_get_directional_deviation_weight`, `_get_nonlinear_inverted_weight`, `_get_projected_velocity` (`DescentModel`: directions are angles with respect to a common base) |
| `multi_obstacle.py` | `MultiObstacle`: `set_root`, `add_component`, `get_parent_idx`, `update_pose`, `update_deformation`, `get_gamma` (global frame), `get_gamma_except_components`, `is_collision_free` (orientations, their action and composition, the intersection search and the component gamma are arguments) |
| `multi_obstacle_container.py` | `is_collision_free`, `get_gamma`, `is_in_free_space` |
| `multiboundary_container.py` | `append`, `extend_graph`, `set_parent`, `add_children`, `get_root`, `get_level_numbers`, `is_collision_free` |
| `multi_body_human.py` | `MultiBodyObstacle`: `set_root`, `add_component`, `align_position_with_parent`, `align_obstacle_tree`, the loop of `update_using_optitrack` (the new pose of a component is an argument); `BodyModel`: `update_using_optitrack` in full, `optitrack_indeces`, `update_orientation_based_on_position`, `get_gamma`, `get_parent_idx`, `transform_from_multibodyobstacle_to_multiobstacle` (filters, `as_euler`, the frame of the robot and `Rotation.from_quat` are arguments; the position array of a filter is not shared with the root) |
| `utils.py` | `project_point_onto_ray`, `get_orthonormal_spanning_basis`, `gamma_normal_gradient_descent` (`DescentModel`: center, gamma and normal of the obstacles are arguments) |
| `dynamics/segmented_dynamics.py` | `DynamicsSegment`, `WavyPathFollowing.get_weights`, `evaluate_global_dynamics`, `evaluate_magnitude`, `create_segment_from_points`; `evaluate_dynamics_sequence`, `evaluate` (`PathModel`) |
| `dynamics/circular_dynamics.py` | `SimpleCircularDynamics` in its relative frame, `CircularRotationDynamics`; `DynamicDynamics.update_base` (without the debugger call at its end) and `evaluate` (`PathModel`) |
| `dynamics/wavy_attractor_dynamics.py` | `WavyLinearDynamics` (the linear system is an argument) |
| `dynamics/projected_rotation_dynamics.py` | deflation and inflation (the local radius is an argument), folding and unfolding (`get_orthogonal_basis` is an argument), `get_projected_position`, `evaluate_projected_weight` (pose, gamma and radius of the obstacle are arguments), `evaluate_rotation_start_to_end`, `evaluate_rotation_position_to_transform`, `evaluate_convergence_around_obstacle`, `evaluate_convergence_sequence_around_obstacle` (there the projected weight is an argument) |
| `dynamics/locally_rotated_linear_dynamics.py` | `__init__`, `evaluate` of `LocallyRotatedFromObtacle` (`get_gamma` is an argument) |
| `dynamics/spiral_dynamics.py` | `evaluate` of `SpiralingDynamics3D` (frame as an argument) and of `SpiralingAttractorDynamics3D` |
| `dynamics/deviation_dynamics.py` | `ObstacleRotatedDynamics.evaluate` (both fields and the gamma values are arguments) |
| `dynamics/nonlinear_deviation.py` | `evaluate`, `evaluate_without_lyapunov_check` of `DeviationOfConstantFlow`; `evaluate`, `get_weights`, `get_velocity_factor`, `evaluate_convergence_velocity`, shape of the null matrices in `fit_from_velocities` of `PerpendicularDeviatoinOfLinearDS` (the regressor is an argument); `FitModel`: `_clean_input_data`, `velocity_to_direction`, `fit_from_velocities` and `fit` of both, `predict` of the perpendicular deviation, as functions from the learner (samples to predictions) |
| `nonlinear_rotation_avoider.py` | `get_convergence_weight`; `evaluate_convergence_around_obstacle`, `evaluate_projected_weight`, `evaluate_convergence_sequence_around_obstacle` of `ConvergenceDynamicsWithoutSingularity`; `evaluate`, `evaluate_sequence`, `compute_gamma_weights`, `evaluate_weighted_dynamics`, `evaluate_weighted_dynamics_sequence` of `SingularityConvergenceDynamics` (gamma values are arguments; its `avoid` calls a method which does not exist and is not modelled) |
| `multi_hull_and_obstacle.py` | `MultiHullAndObstacle`: `__init__`, `set_attractor`, `is_inside`, `evaluate`, `_get_local_dynamics`, `update_shortest_attractor_path` (both), `_assign_local_attractors_along_path`, `_evaluate_weights`, `evaluate_hirarchy_and_reference_points`; `get_boundary_intersection_weight`, `MultiRotationalContainer`, `create_u_shape_obstacle` (the obstacles are given by center, axes, gamma, normal, reference direction and surface point; `is_inside` of the package is gamma <= 1, its default frame is taken as the one of the object; `gamma_normal_gradient_descent` and the shortest paths of networkx are arguments; a reference direction in the tangent plane is outside of the model) |
| `gmm_learner/learner/directional_gmm.py`, `base.py` | `transform_initial_to_normalized`, `normalize_velocity`, angles and attractor of `load_data_from_mat`, `_predict`, `get_mixing_weights`, `get_gaussian_probability`, `get_mean_yx`, `predict`, `predict_array` (of positions), `integrate_trajectory` (both); attractors of `gpr_directional.py` and `svr_directional.py` (`np.linalg.det`, `pinv` and the columns of the orthogonal base are arguments; `mean_x`, `scale_x` are None, `crop_vel` is one) |
| `kmeans_learner/kmeans_motion_learner.py` (rest) | `_fit_region_radius`, `compute_distances_to_neighbours`, `_fit_cluster_hierarchy` on an existing graph, `_predict_outside_of_obstacle`, `_enforces_direction_is_towards_parent`, `_is_pointing_towards_parent`, `predict`, `predict_averaged_lyapunov`, `_predict_initial_direction`, `fit` and `from_centers` after the clustering (label of a position, local dynamics, Lyapunov direction, `obstacle_avoidance_rotational` and the orthogonal base are arguments; not: `_predict_outside_of_obstacle_mutually_exclusive`); `LocalFitModel`: `_fit_local_dynamics`, and `predict` with the fitted local dynamics (the learner of the regressors is an argument) |
| `multi_obstacle_avoider.py`, `nonlinear_rotation_avoider.py` (both kinds of convergence) | `FreeConvModel`: `create_with_convergence_dynamics`, `create_local_convergence_dynamics`, the repeated creation of the constructor, `evaluate_rotation_position_to_transform`, `evaluate_rotation_start_to_end`, `evaluate_projected_weight` of `ConvergenceDynamicsWithoutSingularity`, `compute_convergence_sequence` with either convergence dynamics (`has`: whether the attribute `attractor_position` exists) |
| `multi_obstacle_avoider.py` (legacy) | `OldModel`: `get_tangent_direction`, `evaluate_avoidance_direction`, `evaluate_avoidance_sequence`, `populate_tangent_tree`, `_update_tangent_branch`, `evaluate_old` (whether the avoider was evaluated before is an argument) |
| `gmm_learner/direction_space.py`, `gmm_learner/learner/directional_gmm.py` (rest) | `CondModel`: `regress_gmm`, `get_mixing_weights`, `get_mean_yx`, `get_gaussianProbability` (one sample); `get_covariance_out`. Not modelled: `orthonormal_matrix`, `velocity_reduction`, `velocity_reconstruction` (always raise `ValueError`), `guassian_function` (uses a variable before its assignment) |
| `geometry.py`, `multiboundary_container.py` (rest) | `WallModel`: `create_shapely_ellipse`, `get_intersection_of_obstacles`; `_get_intersection`, `update_intersection_graph`, `get_parent_intersection`, `get_convergence_boundary_point`. Not modelled as they always raise: `__delitem__` (`NameError`), `get_boundary_list` of a nonempty container (`AttributeError`), `update_convergence_direction` (`TypeError`) |
| `avoidance/rotational_avoider.py` (legacy) | `SwingModel`: `_get_rotated_convergence_direction`, `_get_projection_of_inverted_convergence_direction`, `_get_projected_nonlinear_velocity` (unit directions by their angles; break points left out) |
| `gmm_learner/graph.py`, `dynamics/projected_rotation_dynamics.py` (more) | `EndModel`: `get_end_point` in the plane (eigh and the direction at the center are arguments), `_get_lyapunov_gradient`, `_get_projected_lyapunov_gradient`, `get_base_convergence`, `_get_vector_rotation_of_modulation` (the modulation is an argument), `get_projected_gamma`, `compute_obstacle_convergence_sequence` |
| `gmm_learner/graph.py`, `multiboundary_container.py`, `multihull_convergence.py` (more) | `create_graph_from_gaussians`, `_get_assigned_elements`, `_get_local_attractor`, `update_relative_reference_point`, `get_weight_gamma_for_hulls`, `get_desired_radius`, `multihull_attraction` up to its failing call (mixing weights, argsort, gamma, surface points, and the projections are arguments; break points are passed over) |
| `arch_obstacle.py` | `create_arch_obstacle`, `BlockArchObstacle`: `__init__`, `set_root`, `add_component`, `is_collision_free`, `get_parent_idx`, `update_obstacles` (the gamma of a block is an argument; no margin) |
| `multi_ellipse_obstacle.py` | `get_intersection_with_ellipse`, `append`, `set_root`, `set_parent`, `get_parent_idx`, `get_normalized_tangent_component`, `get_gamma`, `is_inside` (whether components intersect is an argument) |
| `rotation_container.py` | `append`, `set_convergence_directions`, `get_convergence_direction`, `get_intersection_position`, `__delitem__`, `__setitem__` (`LocallyRotated` is an argument; the base container by contract a Python list) |
| `gmm_obstacle.py` | `get_kernel_point`, `set_kernel_point`, `evaluate_hirarchy_and_reference_points`, `get_root_rotation_direction`, `evalute_weighted_reference_and_normal_offset` (from the mean reference on), `evaluate_gamma_weights`, `get_obstacle_occlusion_factor`, gammas, derivative, projections, frames, reference and normal direction, `get_intersection_of_ellipses` (mixture, eigenvectors and `predict_proba` are arguments; not: `from_container`, `avoid`, `get_relative_orientation_of_ellipses`, `_get_gauss_derivative`, conversion and plots) |
| `comparison/` | `integrate_trajectory` of `comparison_multiobstacle_vectorfield.py`; `normalize_velocities` and the five metrics of `evaluation_trajectories.py`, `mean_squared_error_to_path` of `evaluation_trajectories_with_std.py`, the test for a local minimum; `get_converged` and `run` of `evaluation_path_following.py` (without file access; not: variances of pandas) |
| `dynamics/sequenced_dynamics.py` | `evaluate_dynamics_sequence` |
| `kmeans_learner/kmeans_obstacle.py` | `get_reference_direction`, `_get_gamma_without_transition`, `get_normal_direction`, `evaluate_surface_points` (`KObsModel`: `np.argsort` and the second base vector are arguments; `get_directional_weighted_sum` by its contract in section 3) |
| `kmeans_learner/kmeans_obstacle.py` | `KMeansObstacle`: planes, `get_point_on_surface`, `get_gamma`, `is_inside` (an object with coincident relevant centers, NaN normals in numpy, is an error value) |
| `kmeans_learner/kmeans_motion_learner.py` | `_fit_remove_sparse_clusters` (prediction of the k-means object as an argument), `_fit_cluster_hierarchy`, `_predict_sequence_weights` |
| `graph_handler.py` | `GraphHandler` (all methods); `ElementModel`: `GraphElement`, `BasicGraphHandler` (all methods, the generated comparison and `list.remove`; values are numbers) |
| `gmm_learner/math_tools.py` | `rk4`, `rk4_pos_vel`, `mag_linear_maximum` |

### Not modelled

Plotting, animation, the rest of `comparison/`, `visualization/`, the fitting of the learners in `gmm_learner/learner/` (sklearn) and their graphs, ROS/optitrack
input, file IO, logging. Functions that always raise in the pinned commit are listed in section 4.

## 2. Layout (rocq/theories)

* `Base.v` errors as values, sums, list lemmas; `Vec.v` vectors; `Angle.v` atan2/acos facts.
* `*Model.v` the model, one definition per function, no proofs. `*Proofs.v` lemmas.
* `Spec.v` small specifications that do not use the model's helpers.
* `Prop*.v` the property theorems, the concrete witnesses and `Print Assumptions`.

## 3. Plan per property

| id | model | proof |
|----|-------|-------|
| C01 | `rotate_direction` with its `atan2`, normalisation and zero branch | equals an algebraic formula for every base; then isometry, linearity, fixed complement |
| C02 | + `VectorRotationXd` methods | from C01 and angle addition formulas |
| C03, C04 | `from_directions` branch by branch, `allclose` concrete | Gram-Schmidt and `acos`; error values for zero/antiparallel; refutation of exactness inside the tolerance |
| C05 | `rotate_array`, `rotate_sequence` | columnwise equality, isometry |
| C06 | `directional_vector_addition` | from C03 |
| C07-C09 | `VectorRotationSequence` | induction on the vector list; C09 is expected to be false (start vector), so refutation plus the part that holds |
| C10, C11 | `VectorRotationTree` state as insertion-ordered node list | invariant by induction on histories; BFS by invariant; C11 atomicity is expected to be false (ghost nodes) |
| C12 | `get_all_childs_children` | BFS equals descendants |
| C13 | `update_partial_rotations` weights | induction over any level-sorted permutation |
| C14-C17 | the two passes of the reduction | invariant: child part-base starts where the parent's part rotation ends, kept by common isometries; C17 expected false in one case |
| C18-C24, C26-C28 | weight functions as list functions | real arithmetic over lists; refutations where two entries saturate |
| C25 | parent occlusion | powers of reals |
| C29-C32 | scaling and evaluation | real powers, Cauchy-Schwarz |
| C33, C34 | `avoid` entry branches; relative velocity | case analysis; convexity |
| C35 | branch walk, id construction | well-founded parent map; injectivity of ids |
| C60 | tangent projection | log/exp on the sphere; the quadratic of the ray and the circle |
| C61 | whole evaluation in contact | one-hot weights, reduction with full weight on one node (C15), C60, C29 |
| C62, C63 | `evaluate_dynamics_sequence`, transport rotation | C07 for two vectors, C03 |
| C64 | `vector_rotation_reduction` | the tree stays sound under insertion of sequences; C14, C15 |
| C65 | `compute_convergence_sequence` | loop invariant: sound tree, keys of the processed pairs, listed nodes = pairs with influence; C15, C18; refutation by C16 |
| C66 | `evaluate` | composition of C62, C65, C32 and C61 |
| C67 | folding, unfolding | orthonormal columns span (Bessel), polar form of the position, bound on the slope for `allclose` |
| C68 | `get_projected_position`, `evaluate_projected_weight` | C46, C47, C67; refutation with two poses of a disc |
| C69 | both together | C65 with the weight of C68 |
| C70 | `get_smooth_continuation_weight` | form of the weight as a power of the inverse of gamma; exponential bounds |
| C71 | `get_pseudo_tangent` | log/exp on the sphere, quadratic of ray and circle |
| C72 | `avoid` in contact | C71, C15 on the tree of the summing, C31; failure by C73 |
| C73 | reduction of any tree | the rotation of the opposite pair is NaN whatever the order of evaluation; induction over the node lists |
| C74 | `directional_convergence_summing` before contact | C70 with the arguments as the code passes them; refutation with a floor |
| C75 | `avoid_sequence` | loop invariant: tree without opposite neighbours, fresh ids, nodes of the processed obstacles; C14, C15 |
| C76 | `avoid` with `convergence_radiuses` | refutation from the exact angle in C72 |
| C77 | `LocallyRotatedFromObtacle` | rotation of the attractor direction bounded by the rotation angle; contraction of the distance, induction over executions |
| C78, C79 | spirals | C44 in the plane of the frame; induction over executions |
| C80 | `ObstacleRotatedDynamics` | C03 for the averages |
| C81, C82 | learned deviations | exponential of the limited angle; convexity of the weighted angle; witness at an angle of a sixth of pi |
| C83, C84 | `compute_gamma_weights`, `evaluate_weighted_dynamics` | mask and weights in closed form; star-shaped tree (C16) |
| C85, C86 | `ProjectedRotationDynamics` around one obstacle | C63, logarithm and exponential of the sphere, triangle inequality of angles |
| C87 | `evaluate_weighted_dynamics_sequence` | invariant of the loop (sound tree, fresh identifiers), C14, C15 |
| C88, C89 | `evaluate`, `evaluate_sequence` of `SingularityConvergenceDynamics` | C84, C87 with C72, C75 |
| C90, C92 | `MultiHullAndObstacle.evaluate` | weights in closed form; logarithm and exponential in the plane of reference and attractor |
| C91 | local attractors | invariant of the state over evaluations (`routed`), induction along the path |
| C93 | graph of hulls | induction over the hulls |
| C94-C96 | intersection weight, U shape, container | cases, C90 |
| C97-C99, C103 | `_predict` of the mixture | closed form of the weights; norm of a weighted sum; 1-norm and 2-norm of the weights |
| C100 | `predict_array` | rows outside of the limited block; equal samples |
| C101 | learned angles, attractors | completeness of an orthonormal frame (`orthogonal_complete`), inverse of the angle space (`vector_of_angle_of`) |
| C102, C104 | trajectories, velocities | induction over the steps; cases |
| C105, C108, C109 | k-means learner: radius, `predict`, repeated fits | maximum and minimum of lists; gamma in and out of the region (C57, C58); the chain of the fresh graph; induction over the order with an existing graph |
| C106 | `_predict_outside_of_obstacle` | powers with positive exponents; one angle vector; the frame is an argument |
| C107 | `_enforces_direction_is_towards_parent` | the loop on an arc of directions, by induction over the iterations; monotony of the test for two clusters |
| C110, C111 | `gmm_learner/graph.py` `create_graph_from_gaussians` | invariant of the rounds with the round of each hull; progress: the own index is the last preference, so the root is found before; measure: number of hulls not in the graph |
| C112-C114 | `_get_local_attractor`, `update_relative_reference_point`, `multihull_convergence.py` | maximum of the weights; the relative gamma is monotone in the weight; powers; folds which never increase |
| C115, C116 | `arch_obstacle.py` | rotations in the plane; cases over the three blocks |
| C117, C118 | `multi_ellipse_obstacle.py` | witnesses; induction over the steps of the way; linear combinations of the columns |
| C119 | `rotation_container.py` | induction over executions; equality case of Cauchy-Schwarz |
| C120-C121 | hierarchy in `gmm_obstacle.py` | invariant of the loop over the remaining components, through the histories of C52 |
| C122-C124 | weights, gamma and frames in `gmm_obstacle.py` | scaling of the quadratic form; completeness of orthonormal columns |
| C125-C128 | normals, kernel points, mean normal and intersection in `gmm_obstacle.py` | derivatives along lines; equality case of Cauchy-Schwarz; witnesses |
| C129 | weight function of `nonlinear_rotation_avoider.py` | cases |
| C130-C134 | trajectories and metrics of `comparison/` | invariant of the simulation loop; extremal means; sums |
| C135, C136 | evaluation of a path of segments, dynamics with a moving base | tree of a chain, weights of C43; induction on the calls |
| C137-C139 | search of common points, weights of the deviation, averaged normal | run of the loop; monotone powers; sums |
| C140, C141 | normal, gamma without transition and sampled surface of a k-means region | extent along a ray (C57), planes between centers |
| C142-C145 | articulated body: conversion, tracking cycles, orientation of limbs, gamma | induction over the components; invariant of the breadth first loop with a rule for each joint; half angles |
| C146, C147 | rotated convergence, projected nonlinear direction | quadratic of the circle along a line: signs of its factors at three points; convex combinations |
| C148, C149 | end points of Gaussians, gradients, rotation of the modulation | components along the eigenvectors; exactness of from_directions |
| C150, C151 | tangent direction, earlier evaluation | invariant of the tangent tree along the chain of tangents; mean on one node; bounds of C30 |
| C152, C153 | regression and conditional covariance of a mixture | weights of C97; completion of the square with the pseudo inverse |
| C154, C155 | intersection points | the frame of an ellipse is affine; convexity of the norm; induction over the loop of the update |
| C156, C157 | fitted deviations | coordinates in an orthonormal frame invert the embedding; an interpolating learner returns the coordinates of a sample |
| C158 | fitted local dynamics | C156, C157 for the samples of a cluster and its neighbours; a mean of parallel directions with weights of sum one is the direction; the chain of the graph |
| C159 | spread of the mean | invariant of the second pass: the angles of the sequence are at most the turns of the levels passed; triangle inequality of the sphere; summation along the paths |
| C160 | convergence of an avoider without attractor | refinement to the projected case by induction over the trees and chains; invariant over the trees: every direction of the convergence tree is the field's; one step of the reduction for the errors |
| C161 | linked elements | heap of elements; invariant (both ways linked, different values) kept by every allowed call; counterexamples for equal values and for elements added with a parent |
| C162 | frame of a direction tree | both passes of the reduction commute with linear maps that keep inner products, up to the second base vector of rotations by zero; a mirror that fixes all directions fixes the mean |
| C163 | continuity of the weighted mean | `ContProofs`: convergence of sequences of vectors, rotations by |s| in the plane of E and s are continuous in s also at zero (cardinal sine); induction over the levels: end vectors converge, and the rotations of all nodes which keep their weight; nodes which lose it contribute a bounded vector times a vanishing angle |
| C164 | renaming and further nodes | `embedded`: injective map of names keeping attributes and edges; what lies above an embedded node is embedded; induction over the levels with the step lemma of C163: end vectors and rotations of nodes with weight agree; the extra levels of the larger tree turn by zero |
| C165 | joint continuity in directions and weights | `redirected`: same shape, other directions; the rotation from the parent converges where its limit turns, and is the identity from some index on where it does not; induction over the levels as in C163 with this weaker convergence of rotations |
| C166 | order of the obstacles | the population of the tangent tree is split into one entry per obstacle; an obstacle inserted under two numbers gives the same subtree up to the number (simulation); the resulting renaming is an embedding in the sense of C164; weights, weighted normals and slow-down are functions of multisets |
| C167 | frame and unit | every query of a component, the walk to the root, the projected tangent, the population of the tangent tree, the weights and the relative velocity are shown to commute with the change of frame; the reduction of the tree is C162 |
| C168 | frame and unit, whole command | the initial sequence, the chain over the reference points, the averages and the final reduction of the convergence tree commute with the change of frame (each step is run in both frames side by side); with C167 the whole of `evaluate` follows |
| C169 | items of a container | Python indices by an independent relation; state and result of the failing calls; induction over histories with caught exceptions. `BaseContainer.__delitem__`/`__setitem__` by contract the operations of a Python list |
| C170 | continuity of the steps | Sequences of inputs and componentwise limits; the tangent by a closed formula on both sides of the convergence radius; the turn by a closed formula without the basis; the shares by three cases |
| C171 | continuity of the avoidance | The direction tree of every member of the sequence is the limit tree with other directions (`redirected`), by induction over trees, components and walks; then the weighted mean of a tree is continuous in its directions and weights (C165) |
| C172 | continuity of the weights | One formula for the rotation weight on each side of the surface, valid in and out of contact; both sides agree for a velocity along the surface; the component weights multiplied by the distance of the nearest component |
| C173 | continuity of the speed and of the whole command | Slow-down as a minimum of continuous factors; scaling by cases in and out of contact with a power bound at contact; composed with C171 for the command |
| C174 | continuity where components lose their weight | The tree of the limit is embedded in the tree of all components populated at the limit, whose mean with zero weights is the same; C171 on the larger tree; a refutation where the last weight dies |
| C175 | continuity under arbitrary changes of the weighted components | Finitely many components: every sequence splits into subsequences with a constant set of weighted components, chosen without choice axiom (search over the naturals); C174 on each |
| C176 | continuity of the whole command from continuity of the obstacle queries | The record `gentle` lists what is asked of the queries; C172 gives the weights, C171 the branches, C173 the slow-down, C175 the changes of the weighted set |
| C177 | continuity around balls | C176 with the queries of balls (gamma, normal, reference direction and surface point written out); their continuity is proved |
| C178 | runs among balls | C61 with the queries of balls, and an invariant over runs of any length: penetration is bounded by one step |
| C179 | progress among balls | every direction of the tree of balls is within a right angle of the initial velocity, hence by C159 so is the mean; runs advance monotonically |
| C180 | no equilibria among balls | C179 with both slow-downs shown positive: a weight of one belongs to a direction which does not point into its ball, and no record asks for a full stop |
| C181 | approach of an attractor among balls | C180 with the initial velocity towards the attractor, and the expansion of the squared distance after a step |
| C36-C41 | containers | invariants over operation histories |
| C42-C47 | utils and dynamics | real analysis, calculus-free |
| C48-C51 | k-means learner | list functions over reals |
| C52 | graph handler | invariants, refutations of atomicity |
| C53 | rk4 | algebra |
| C57-C59 | k-means region value | distances beyond the surface are bounded by the way to it; convex combinations |
| C54 | `rotate_weighted` | refutation by a chain of two quarter turns; induction along the chain for neighbouring weights |
| C55, C56 | circular rotation, path segments | real analysis; induction on the way points |

## 4. Functions which always raise (excluded)

* `MultiObstacle.get_gamma(in_global_frame=False)` hands an array to `transform_pose_from_relative`.
* `MultiBoundaryContainer.__delitem__` uses an undefined name.

## 5. `Print Assumptions` per theorem

Closed under the global context:

`C145_lookup`, `C143_robot`, `C40_boundary_graph_partial`, `C40_chain`, `C161_histories`, `C161_delete`, `C161_added_with_parent`, `C161_equal_values_refuted`, `C117_rejected_partial`, `C117_second_root_refuted`, `C117_second_parent_refuted`, `C117_failed_parent_refuted`, `C117_way_refuted`, `C131_empty_refuted`, `C160_needs_reference`, `C102_mixture_refuted`, `C52_lookup`, `C52_consistent_partial`, `C52_forest`, `C52_set_parent_atomic`, `C52_reattach_refuted`, `C52_failed_add_refuted`, `C52_self_parent_refuted`, `C52_roots_refuted`, `C169_items_refuted`, `C169_free_space`, `C169_free_space_refuted`, `C82_fit_dimension`.

Axioms: `ClassicalDedekindReals.sig_forall_dec`:

`C142_conversion`, `C36_component_tree_partial`, `C36_add_parent`, `C36_without_reference`, `C37_rejected_unchanged_partial`, `C37_rejected_unchanged_refuted`, `C36_component_tree_refuted`, `C39_component_poses`, `C40_boundary_graph_refuted`, `C40_second_parent_refuted`, `C41_rejected_component_refuted`, `C32_no_velocity`, `C12_descendants`, `C155_no_point`.

Axioms: `ClassicalDedekindReals.sig_forall_dec`, `ClassicalDedekindReals.sig_not_dec`, `Classical_Prop.classic`, `FunctionalExtensionality.functional_extensionality_dep`:

`C179_forward_partial`, `C179_run_partial`, `C72_contact_partial`, `C72_contact_full_speed_partial`, `C72_opposite_convergence_fails`, `C72_contact_refuted`, `C85_speed`, `C85_full_weight`, `C85_no_weight`, `C85_arc`, `C85_deviation`, `C85_behind`, `C85_rejected`, `C86_sequence`, `C86_other`, `C86_plain`, `C29_safe_scaling`, `C29_long_normal_undefined`, `C30_safe_magnitude_partial`, `C30_speed_bound_refuted`, `C33_without_near_obstacles`, `C33_inside_is_contact`, `C33_speed_bound`, `C33_static_speed_bound`, `C33_speed_kept`, `C34_weighted_mean`, `C34_static_is_zero`, `C34_contact_velocity`, `C34_translation_speed`, `C34_spatial_rotation_raises`, `C75_contact`, `C75_defined`, `C75_without_importance`, `C75_head_on`, `C177_direction_partial`, `C177_velocity_partial`, `C177_tame`, `C177_right_angle_partial`, `C74_influence_partial`, `C74_into_obstacle_refuted`, `C144_limb_axis_partial`, `C144_limb_axis_refuted`, `C144_downwards_refuted`, `C143_tracking`, `C143_message_without_id`, `C143_unmeasured_limb_refuted`, `C55_rotation_weight`, `C55_circular_rotation`, `C55_sense`, `C54_neighbours_partial`, `C54_fraction_refuted`, `C152_between`, `C152_attractor`, `C152_hull_refuted`, `C152_normalized_refuted`, `C61_no_penetration`, `C163_continuous`, `C65_convergence_sequence`, `C65_overlap_refuted`, `C62_dynamics_sequence_partial`, `C62_without_attractor`, `C62_tiny_velocity_raises`, `C62_near_attractor_refuted`, `C63_rotation_to_reference`, `C64_no_influence`, `C64_transported_sequence`, `C137_search`, `C137_default_refuted`, `C138_deviation`, `C138_deviation_jump_refuted`, `C139_average`, `C139_opposite_refuted`, `C80_speed_and_angle`, `C80_no_obstacle`, `C80_contact`, `C80_fallback_refuted`, `C174_direction`, `C174_velocity`, `C174_velocity_refuted`, `C43_weights_partial`, `C43_weights_refuted`, `C47_projected_weight`, `C47_decreasing`, `C164_embedded`, `C164_insertions`, `C148_along`, `C148_on_ellipse_partial`, `C148_on_ellipse_refuted`, `C149_modulation`, `C149_opposite_refuted`, `C149_sequence_refuted`, `C66_at_rest`, `C66_no_obstacles`, `C66_around_obstacles_partial`, `C66_away_raises`, `C66_raises_refuted`, `C172_rotation_weight`, `C172_rotation_weight_refuted`, `C172_tree_weights`, `C156_accepted`, `C156_refused`, `C156_reproduced`, `C156_limited`, `C156_speed_refuted`, `C157_reproduced`, `C157_unused`, `C157_mismatch`, `C157_attractor_refuted`, `C176_velocity_partial`, `C176_direction_partial`, `C67_folded_position`, `C67_unfold_fold`, `C67_fold_injective`, `C67_reference_kept`, `C67_argument_kept_refuted`, `C68_projected_position`, `C68_weight`, `C68_weight_attractor_inside`, `C68_injective`, `C68_orientation_refuted`, `C162_frame`, `C162_hyperplane`, `C160_attractor`, `C160_uniform_field`, `C160_varying_raises`, `C160_reference_raises`, `C97_mixing_weights`, `C97_degenerate`, `C98_deviation`, `C98_velocity`, `C99_shrinks`, `C99_attraction`, `C99_option_lost_refuted`, `C100_one_sample`, `C100_equal_samples`, `C100_independent_refuted`, `C100_overwritten_refuted`, `C100_kept`, `C101_reproduced`, `C101_other_attractor_refuted`, `C103_gaussian`, `C103_density_refuted`, `C122_weights`, `C122_inside`, `C122_outside`, `C122_hidden`, `C125_normal`, `C125_triangular_refuted`, `C125_center`, `C125_half`, `C125_derivative_refuted`, `C127_round`, `C127_round_refuted`, `C127_single`, `C128_same_center`, `C128_middle`, `C128_overlap_refuted`, `C128_descent`, `C181_approach_partial`, `C90_wall`, `C90_free`, `C92_single`, `C90_frame_refuted`, `C92_frame_refuted`, `C92_rest_refuted`, `C91_outside_refuted`, `C91_overlap_refuted`, `C91_gates_refuted`, `C94_weight`, `C94_jump_refuted`, `C96_mean`, `C96_append_refuted`, `C91_routes_partial`, `C91_found`, `C69_full_influence`, `C69_contact_direction`, `C69_attractor_covered`, `C165_continuous`, `C105_samples_inside`, `C108_inside`, `C108_face_refuted`, `C108_from_centers_refuted`, `C108_outside`, `C109_refit_refuted`, `C108_averaged`, `C140_normal_partial`, `C140_faces`, `C140_center_refuted`, `C140_sphere_refuted`, `C140_wrong_side_refuted`, `C106_weights_refuted`, `C106_single`, `C106_cutoff_refuted`, `C106_behind`, `C106_speed`, `C107_two_clusters`, `C107_refuted`, `C170_tangent`, `C170_turn`, `C158_accepted`, `C158_local`, `C158_predicted`, `C158_forward`, `C77_speed_and_angle`, `C77_executions_converge`, `C77_far_and_center`, `C77_defined`, `C77_defined_refuted`, `C77_at_attractor_error`, `C77_continuity_refuted`, `C77_fades`, `C175_direction_partial`, `C175_velocity_partial`, `C168_convergence_partial`, `C168_velocity_partial`, `C168_influence_partial`, `C180_moves_partial`, `C180_run_partial`, `C150_rest`, `C150_weights`, `C150_contact`, `C150_fresh_refuted`, `C150_no_obstacles_refuted`, `C150_outside_refuted`, `C151_speed`, `C151_carried_refuted`, `C150_not_inward`, `C73_opposite_neighbours_break_every_mean`, `C166_direction`, `C166_velocity`, `C166_order`, `C173_slowfactor`, `C173_safe_scaling`, `C173_safe_scaling_refuted`, `C173_scaled_velocity`, `C173_velocity`, `C135_followed`, `C135_ahead_refuted`, `C135_attractor_refuted`, `C135_long_refuted`, `C60_projected_tangent`, `C60_never_raises`, `C60_not_inward`, `C60_boundary_kept_partial`, `C60_boundary_kept_refuted`, `C60_aligned_unchanged`, `C60_aligned_refuted`, `C76_own_radius_refuted`, `C81_exact_deviation`, `C82_speed`, `C82_approach`, `C82_untrained`, `C82_lyapunov_refuted`, `C01_rotate_direction_is_plane_rotation`, `C01_zero_vector_unchanged`, `C02_rotations_add`, `C02_inverse_undoes_rotate`, `C03_from_directions_exact`, `C03_partial_rotation_angle`, `C04_close_pair_error_bound`, `C04_same_direction_exact`, `C04_degenerate_is_an_error`, `C04_close_pair_exactness_refuted`, `C05_rotate_array_columnwise`, `C05_rotate_array_normalises`, `C05_rotate_sequence`, `C06_directional_addition`, `C06_zero_operand`, `C07_sequence_from_vectors`, `C07_end_vector`, `C07_invalid_vectors_rejected`, `C08_weighted_rotation_is_isometry`, `C08_reaches_each_vector`, `C08_zero_weights_identity`, `C08_full_rotation_reaches_end`, `C09_append_direction_partial`, `C09_append_direction_refuted`, `C167_direction`, `C167_velocity`, `C167_unit_refuted`, `C87_sequence`, `C87_unaligned`, `C87_plain_refuted`, `C88_undisturbed`, `C88_contact_partial`, `C88_moving_refuted`, `C89_rest`, `C89_undisturbed`, `C89_speed`, `C89_contact`, `C84_far`, `C84_mean_partial`, `C84_alone`, `C84_within`, `C84_standstill`, `C84_wrong_obstacle_refuted`, `C70_continuation_weight`, `C71_away_kept`, `C71_tangent`, `C71_not_inward`, `C71_tail_rotation`, `C159_spread`, `C159_common_direction`, `C171_direction`, `C146_rotated`, `C146_monotone`, `C146_away_refuted`, `C147_projected`, `C147_between_refuted`, `C147_raises_refuted`, `C35_population`, `C35_population_projected`, `C32_no_obstacles`, `C32_speed_bound_partial`, `C32_speed_bound_refuted`, `C178_touched_partial`, `C178_run_partial`, `C10_history_is_rooted_tree`, `C11_unknown_parent_refuted`, `C13_node_weights_are_subtree_sums`, `C13_independent_of_history_and_entry_order`, `C13_independent_of_order_within_levels`, `C13_length_mismatch`, `C14_reduction_geometry`, `C14_no_weight_is_an_error`, `C15_full_weight_on_one_node`, `C16_mean_around_root`, `C17_contiguous_partial`, `C17_repeated_rotation`, `C17_contiguous_refuted`, `C113_relative`, `C113_passage`, `C113_reference_refuted`, `C113_reset`, `C114_radius`, `C114_unset_point_refuted`, `C19_gamma_weights`, `C22_rotation_weight`, `C25_parent_occlusion`, `C28_slowfactor`, `C24_avoidance_weights_partial`, `C24_base_share_nonnegative_refuted`.

Axioms: `ClassicalDedekindReals.sig_forall_dec`, `ClassicalDedekindReals.sig_not_dec`, `FunctionalExtensionality.functional_extensionality_dep`:

`C115_shape`, `C115_moved`, `C115_block_moved_refuted`, `C116_references`, `C31_limit_magnitude_partial`, `C44_simple_circular`, `C44_on_circle`, `C44_maximum_velocity_refuted`, `C56_path_partial`, `C56_margin_refuted`, `C56_half_margin_raises`, `C56_magnitude`, `C39_rigid`, `C39_deformation`, `C138_projected`, `C138_into_refuted`, `C42_nearest_point`, `C43_segment_distance`, `C43_segment_direction`, `C45_wavy`, `C45_large_deviation`, `C46_deflate_shift`, `C46_inflate_shift`, `C46_inflate_deflate`, `C46_deflate_inflate`, `C46_partial_deflation_refuted`, `C46_surface_collapses`, `C53_speed_limit`, `C118_tangent`, `C118_ellipse_global`, `C149_gradient`, `C149_projected_gamma_refuted`, `C130_trajectory`, `C130_stopped`, `C130_step_length`, `C130_classification_refuted`, `C130_minimum_refuted`, `C130_start_refuted`, `C131_distance`, `C131_signed`, `C131_cancel_refuted`, `C132_dot`, `C132_time_step`, `C132_standing`, `C133_following`, `C133_own_field`, `C133_squared`, `C133_range`, `C133_speed_refuted`, `C133_pause_refuted`, `C134_means`, `C134_spread_refuted`, `C130_counted`, `C157_deviation`, `C101_first_left_out_refuted`, `C102_trajectories`, `C102_starting_points_refuted`, `C104_normalized`, `C104_at_rest`, `C123_surface`, `C123_center_refuted`, `C124_projection`, `C124_gamma_value`, `C124_gamma_refuted`, `C120_hierarchy`, `C120_evaluated`, `C121_root_below_dimension`, `C121_closest_refuted`, `C121_missing_refuted`, `C125_reference`, `C126_first_component`, `C126_projection`, `C126_towards_refuted`, `C126_unit_velocity`, `C127_unit`, `C91_wall_refuted`, `C110_tree`, `C111_choice_refuted`, `C93_gate_refuted`, `C95_u_shape`, `C96_prepared`, `C93_graph`, `C169_history_refuted`, `C169_intersection`, `C169_intersection_errors`, `C105_covered`, `C105_neighbours`, `C109_edges_kept`, `C48_surface_point_partial`, `C48_local_frame`, `C57_is_inside_partial`, `C57_surface_refuted`, `C58_transparent_face`, `C59_obstacle_gamma_refuted`, `C49_sequence_weights`, `C49_no_parent`, `C49_handover`, `C50_chain`, `C50_coincident`, `C51_out_of_range_refuted`, `C51_wrong_center_refuted`, `C48_tolerance_refuted`, `C141_gamma`, `C141_obstacle_refuted`, `C141_surface_points`, `C136_update`, `C136_executions`, `C136_evaluate_refuted`, `C81_speed_and_progress`, `C81_executions`, `C81_check_needed`, `C82_predictions`, `C82_convergence_limit_refuted`, `C119_directions`, `C119_radius_refuted`, `C119_without_attractor`, `C119_attractor_partial`, `C119_attractor_refuted`, `C78_spiral`, `C78_progress`, `C78_speed`, `C78_center_refuted`, `C78_center_nan_refuted`, `C79_speed_and_height`, `C79_never_rest`, `C79_rest_refuted`, `C147_crossing`, `C147_missing`, `C147_inside`, `C35_walk_is_parent_chain`, `C35_walk_total`, `C10_insertion_effect`, `C10_insertion_accepted`, `C11_atomic_rejections_partial`, `C154_in_both`, `C154_order_refuted`, `C155_points`, `C155_positions_refuted`, `C155_outside_refuted`, `C112_root_refuted`, `C27_convergence_radiuses`, `C27_repulsion_disabled`, `C27_init_range`.

Axioms: `ClassicalDedekindReals.sig_forall_dec`, `FunctionalExtensionality.functional_extensionality_dep`:

`C31_contact_stop_refuted`, `C142_neutral_base_partial`, `C145_gamma`, `C145_conversion_keeps_gamma`, `C142_conversion_refuted`, `C153_conditional_covariance`, `C153_known`, `C38_collision_free`, `C38_no_components`, `C38_excluding_components`, `C38_container`, `C38_empty_container`, `C40_collision_free`, `C41_alignment_closes_joints`, `C41_tracking_closes_joints`, `C138_inverted`, `C138_inverted_jump_refuted`, `C80_weights`, `C80_contact_weights_refuted`, `C53_equilibrium`, `C53_constant_field`, `C53_linear_field`, `C53_scalar_field`, `C53_pos_vel`, `C117_inside`, `C118_ellipse`, `C132_acceleration`, `C132_scaled`, `C134_common`, `C172_component_weights`, `C172_component_weights_refuted`, `C101_attractor`, `C103_conditional`, `C124_inverse`, `C126_set_refuted`, `C111_first_preference`, `C51_kept_points`, `C51_labels_in_range_partial`, `C170_shares`, `C170_shares_refuted`, `C158_mean`, `C83_shares`, `C83_nearer`, `C83_none`, `C83_fade_refuted`, `C129_weight`, `C129_negative_refuted`, `C154_center_refuted`, `C155_projection`, `C112_parent`, `C114_weights`, `C114_attraction_refuted`, `C114_attraction_outside`, `C18_limited_weights_partial`, `C18_total_is_number_of_saturated`, `C18_sum_at_most_one_refuted`, `C20_weights_from_distances`, `C21_tree_weight`, `C23_component_weights`, `C26_occlusion_array_partial`, `C26_largest_gets_weight_refuted`, `C24_partition_partial`.
