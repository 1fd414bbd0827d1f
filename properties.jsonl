{"id": "C01", "title": "rotate_direction is a rotation of the plane of its base", "statement": "For an orthonormal pair base=(b0,b1), rotate_direction(v, base, a) keeps the norm of v and all inner products, is linear in v, leaves every vector orthogonal to b0 and b1 unchanged, and sends b0 to cos(a) b0 + sin(a) b1 and b1 to -sin(a) b0 + cos(a) b1. The zero vector is returned unchanged.", "quantifier": "every dimension n, every orthonormal pair of n-vectors, every vector, every real angle", "why_tests_cant": "the input space is a continuum in every dimension; the code goes through atan2 and a normalisation whose branch cuts (quadrants, zero vector) a sample of inputs does not cover", "anchors": ["nonlinear_avoidance/vector_rotation.py: rotate_direction"]}
{"id": "C02", "title": "Rotations compose additively and inverse_rotate undoes rotate", "statement": "On the same orthonormal base, rotating by a and then by b equals rotating by a+b; VectorRotationXd.inverse_rotate(rotate(v)) = v, rotate with inv() undoes rotate, and rotate(v, rot_factor=s) followed by rotate(., rot_factor=t) equals rotate(v, rot_factor=s+t).", "quantifier": "every dimension, orthonormal base, vector and pair of real angles / factors (also outside [0,1] and beyond +-pi)", "why_tests_cant": "angle wrap-around through atan2 happens at isolated angle sums; only an argument over all angles excludes a jump there", "anchors": ["nonlinear_avoidance/vector_rotation.py: rotate_direction", "nonlinear_avoidance/vector_rotation.py: VectorRotationXd.rotate", "nonlinear_avoidance/vector_rotation.py: VectorRotationXd.inverse_rotate", "nonlinear_avoidance/vector_rotation.py: VectorRotationXd.inv"]}
{"id": "C03", "title": "from_directions builds the rotation that carries one direction onto the other", "statement": "For nonzero, non-antiparallel vectors that are not numerically close, VectorRotationXd.from_directions(u, v) has an orthonormal base whose first vector is u/|u|, an angle in [0, pi), and get_second_vector() = v/|v| exactly; rotate(u, w) for w in [0,1] has norm |u| and its cosine with u is cos(w*angle).", "quantifier": "all pairs of vectors of any dimension >= 2 outside the two degenerate cases", "why_tests_cant": "the Gram-Schmidt/arccos identity has to hold on a continuum of vector pairs in any dimension", "anchors": ["nonlinear_avoidance/vector_rotation.py: VectorRotationXd.from_directions", "nonlinear_avoidance/vector_rotation.py: VectorRotationXd.get_second_vector"]}
{"id": "C04", "title": "from_directions on degenerate pairs", "statement": "If the two unit directions satisfy np.allclose, the base is still orthonormal and get_second_vector() is within 2*|u-v| of the requested direction (equal when they coincide). A zero or exactly antiparallel input yields no valid rotation (NaN entries), never a silently wrong orthonormal base. Requested exactness (second vector equals the direction) does not extend to the numerically-close pairs.", "quantifier": "all pairs of unit vectors of any dimension >= 2 in the allclose / antiparallel / zero cases", "why_tests_cant": "the degenerate sets have measure zero or tiny measure, so random tests never enter them", "anchors": ["nonlinear_avoidance/vector_rotation.py: VectorRotationXd.from_directions"]}
{"id": "C05", "title": "rotate_array agrees column by column with rotate_direction and keeps orthonormal pairs orthonormal", "statement": "For every array whose columns are unit vectors each output column equals rotate_direction of that column; in general each column is normalised first. Consequently a pair of orthonormal columns stays orthonormal, and rotating all bases of a sequence (VectorRotationXd.rotate_sequence) keeps every angle, and its end vector is the rotated end vector.", "quantifier": "arrays with any number of columns, any dimension, any orthonormal base, any angle", "why_tests_cant": "array shapes and column contents are unbounded", "anchors": ["nonlinear_avoidance/vector_rotation.py: rotate_array", "nonlinear_avoidance/vector_rotation.py: VectorRotationXd.rotate_sequence"]}
{"id": "C06", "title": "directional_vector_addition interpolates direction and magnitude", "statement": "For nonzero non-antiparallel vectors the result has norm (1-w)|v1| + w|v2| for every w in [0,1], equals v1 at w=0 and, for vectors that are not numerically close in direction, equals v2 at w=1; if one of them is zero the other one scaled by its weight is returned.", "quantifier": "all vectors of any dimension >= 2, all weights in [0,1]", "why_tests_cant": "continuum of inputs; end points and zero branches are isolated inputs", "anchors": ["nonlinear_avoidance/vector_rotation.py: directional_vector_addition"]}
{"id": "C07", "title": "A rotation sequence built from vectors is orthonormal, contiguous and ends in the last vector", "statement": "VectorRotationSequence.create_from_vector_array raises on a (near) zero vector or an exactly antiparallel neighbour pair, and otherwise every rotation has an orthonormal base starting at vector i (normalised) and ending at vector i+1 (when the two are not merely numerically close), the rotation count is the vector count minus one, and get_end_vector() is the last vector normalised.", "quantifier": "arrays of any number of vectors in any dimension >= 2", "why_tests_cant": "chains of unbounded length; an induction over the chain is required", "anchors": ["nonlinear_avoidance/vector_rotation.py: VectorRotationSequence.create_from_vector_array", "nonlinear_avoidance/vector_rotation.py: VectorRotationSequence.get_end_vector"]}
{"id": "C08", "title": "Weighted rotation along a sequence is norm preserving and reaches each vector of the chain", "statement": "rotate_weighted preserves the norm for every weight list; with all weight on rotation k it carries the first vector of a contiguous sequence to the (k+1)-st vector; with zero weights it is the identity; rotate() with factor 1 carries the first vector to the end vector.", "quantifier": "sequences of any length with orthonormal bases, every weight list of that length, every k", "why_tests_cant": "the back-rotation loop nests over all later bases; correctness needs an invariant over sequences of arbitrary length", "anchors": ["nonlinear_avoidance/vector_rotation.py: VectorRotationSequence.rotate_weighted", "nonlinear_avoidance/vector_rotation.py: VectorRotationSequence.rotate"]}
{"id": "C09", "title": "Appending a direction continues the sequence from its end vector", "statement": "After append_from_direction(d) the sequence has one more rotation, its end vector is d normalised, and the new rotation starts where the old sequence ended.", "quantifier": "all sequences and all directions", "why_tests_cant": "the end vector is right while the start is wrong, so checks of the end vector alone pass", "anchors": ["nonlinear_avoidance/vector_rotation.py: VectorRotationSequence.append_from_direction", "nonlinear_avoidance/vector_rotation.py: VectorRotationSequence.append_from_base_and_angle"]}
{"id": "C10", "title": "The direction tree stays a rooted tree under every history of insertions", "statement": "After set_root and any sequence of successful add_node / add_sequence calls with existing parents, ids are unique, every node but the root has exactly one parent, parents were inserted before their children, level(child) = level(parent)+1 < 100, the root is the only level-0 node and every stored direction is a unit vector.", "quantifier": "all finite histories of insertions, any ids, any directions", "why_tests_cant": "histories are unbounded; the invariant is inductive", "anchors": ["nonlinear_avoidance/vector_rotation.py: VectorRotationTree.add_node", "nonlinear_avoidance/vector_rotation.py: VectorRotationTree.set_root", "nonlinear_avoidance/vector_rotation.py: VectorRotationTree.add_sequence"]}
{"id": "C11", "title": "A rejected insertion leaves the direction tree unchanged", "statement": "If add_node raises (zero direction, duplicate id, unknown parent, level limit, missing level), the tree afterwards contains the same nodes and edges as before and a later valid insertion of the same id succeeds.", "quantifier": "all tree states and all rejected insertion requests", "why_tests_cant": "failure atomicity is about every failing call in every reachable state", "anchors": ["nonlinear_avoidance/vector_rotation.py: VectorRotationTree.add_node"]}
{"id": "C12", "title": "get_all_childs_children returns exactly the descendants", "statement": "For every tree and node, the call terminates and returns every strict descendant exactly once and nothing else, parents before children.", "quantifier": "all rooted trees and nodes", "why_tests_cant": "breadth first growth of a list while iterating: termination and completeness need an invariant over arbitrary tree shapes", "anchors": ["nonlinear_avoidance/vector_rotation.py: VectorRotationTree.get_all_childs_children"]}
{"id": "C13", "title": "Accumulated node weights are subtree sums", "statement": "During reduce_weighted_to_sequence(node_list, weights) the weight used at a node is the sum of the weights assigned to the node and all its descendants; the root carries the total. The returned sequence does not depend on the order of (distinct) entries in node_list nor on weights or rotations left from earlier calls, for any real weights; for nonnegative weights with total at most one it does not depend on the order of nodes of equal level in the sorted list either. A length mismatch raises ValueError.", "quantifier": "all trees without opposite parent/child directions, all assignments of real weights (for the level order: nonnegative with total <= 1, neighbouring directions equal or distinguishable by np.allclose), all level-sorted orders, all earlier calls", "why_tests_cant": "unstable sorting and left-over state only matter in particular histories", "anchors": ["nonlinear_avoidance/vector_rotation.py: VectorRotationTree.update_partial_rotations", "nonlinear_avoidance/vector_rotation.py: VectorRotationTree.reduce_weighted_to_sequence", "nonlinear_avoidance/vector_rotation.py: VectorRotationTree.reset_node_weights"]}
{"id": "C14", "title": "The weighted reduction of a tree is a chain of proper rotations starting at the root direction", "statement": "For nonnegative weights with total in (0,1], the sequence returned by reduce_weighted_to_sequence is not empty, its first rotation starts at the root direction, every rotation with nonzero angle has an orthonormal base, and the end vector (get_weighted_mean) is a unit vector. If all weights are zero the call raises.", "quantifier": "all trees with unit, pairwise compatible directions (no parent/child antiparallel), all nonnegative weights with total <= 1", "why_tests_cant": "the invariant couples arbitrary tree shapes with two passes of back and forward rotations", "anchors": ["nonlinear_avoidance/vector_rotation.py: VectorRotationTree.reduce_weighted_to_sequence", "nonlinear_avoidance/vector_rotation.py: VectorRotationTree.evaluate_graph_summing"]}
{"id": "C15", "title": "All weight on one node returns that node's direction", "statement": "get_weighted_mean([n],[1]) equals the direction stored for n, for a node at any depth of any tree, whatever the other branches are.", "quantifier": "all trees, all nodes", "why_tests_cant": "needs the composition of partial and averaged rotations along a path of any length", "anchors": ["nonlinear_avoidance/vector_rotation.py: VectorRotationTree.get_weighted_mean"]}
{"id": "C16", "title": "Weighted mean of directions around a common root", "statement": "For a depth-one tree with root direction r the weighted mean is cos|s| r + sin|s| s/|s| with s the weighted sum of the (angle times perpendicular) vectors of the children, i.e. the exponential-map average; if s is zero the mean is r.", "quantifier": "any number of children in any dimension with arbitrary weights", "why_tests_cant": "unbounded number of branches, continuum of directions", "anchors": ["nonlinear_avoidance/vector_rotation.py: VectorRotationTree.evaluate_graph_summing"]}
{"id": "C17", "title": "The reduced sequence has no repeated rotation", "statement": "Applying all rotations of the sequence returned by reduce_weighted_to_sequence one after the other to the root direction gives the weighted mean direction, i.e. consecutive rotations are contiguous.", "quantifier": "all trees and all nonnegative weights with total one", "why_tests_cant": "the defect needs a weighted inner node all of whose descendants have zero weight; callers mostly look at the end vector only", "anchors": ["nonlinear_avoidance/vector_rotation.py: VectorRotationTree.evaluate_graph_summing"]}
{"id": "C18", "title": "Limiting weights to a total of one", "statement": "get_limited_weights_to_max_sum on nonnegative weights returns weights in [0,1] that keep zeros and the order; below a total of one they are unchanged and the total is returned, otherwise their sum is exactly one (this needs at most one weight to be >= 1) and the returned total is 1. The sum never exceeds one.", "quantifier": "all nonempty lists of nonnegative weights", "why_tests_cant": "lists of unbounded length; the violating case needs two saturated entries at once", "anchors": ["nonlinear_avoidance/multi_obstacle_avoider.py: get_limited_weights_to_max_sum"]}
{"id": "C19", "title": "Distance weights are nonnegative and sum to at most one", "statement": "compute_gamma_weights returns nonnegative weights of total <= 1; the total is one as soon as an obstacle is at or below the minimum distance and then exactly the critical obstacles share it equally; a nearer obstacle never gets less weight than a farther one.", "quantifier": "all nonempty lists of distances, every minimum distance, every power factor > 0", "why_tests_cant": "lists of arbitrary length with ties and boundary values", "anchors": ["nonlinear_avoidance/multi_obstacle_avoider.py: compute_gamma_weights"]}
{"id": "C20", "title": "Weights from distances", "statement": "MultiObstacleAvoider.compute_weights_from_distances never divides by zero, returns nonnegative weights, with normalisation total <= 1, with a component at or inside its surface the total is exactly one and only such components get weight.", "quantifier": "all nonempty distance lists", "why_tests_cant": "boundary values (distance equal to the minimum) form a null set", "anchors": ["nonlinear_avoidance/multi_obstacle_avoider.py: MultiObstacleAvoider.compute_weights_from_distances"]}
{"id": "C21", "title": "Singularity influence weight of an obstacle tree", "statement": "compute_tree_weight is 1 without an attractor, 0 when the attractor is inside the obstacle, 1 far away, always in [0,1], monotone and continuous in the gamma value of the attractor.", "quantifier": "all gamma values and all influence limits > 1", "why_tests_cant": "continuity and monotonicity are statements about all pairs of inputs", "anchors": ["nonlinear_avoidance/multi_obstacle_avoider.py: MultiObstacleAvoider.compute_tree_weight"]}
{"id": "C22", "title": "Rotation weight", "statement": "RotationalAvoider.get_rotation_weight is exactly 1 at or inside the surface, and outside it lies in [0, 1/gamma]; it never raises for finite inputs.", "quantifier": "all gamma values, all vectors, all powers >= 0", "why_tests_cant": "real-exponent branches over a continuum; the zero deviation case divides by zero", "anchors": ["nonlinear_avoidance/avoidance/rotational_avoider.py: RotationalAvoider.get_rotation_weight"]}
{"id": "C23", "title": "Component weights of one obstacle tree", "statement": "compute_gamma_and_weights gives nonnegative component weights whose total is the rotation weight (hence <= 1), distributed proportionally to the distance weights; with zero rotation weight all weights are zero.", "quantifier": "all numbers of components, all gammas", "why_tests_cant": "unbounded number of components", "anchors": ["nonlinear_avoidance/multi_obstacle_avoider.py: MultiObstacleAvoider.compute_gamma_and_weights"]}
{"id": "C24", "title": "Final avoidance weights form a partition of one with a nonnegative share for the base velocity", "statement": "In evaluate_avoidance_from_sequence the weights handed to the direction tree (components of all obstacle trees plus base velocity) sum to one and the base velocity gets a nonnegative share.", "quantifier": "all numbers of obstacle trees and components, all component weights", "why_tests_cant": "the violating configuration needs contact with two obstacle trees at once", "anchors": ["nonlinear_avoidance/multi_obstacle_avoider.py: MultiObstacleAvoider.evaluate_avoidance_from_sequence"]}
{"id": "C25", "title": "Parent occlusion weights", "statement": "compute_parent_occlusion_weight gives the root weight 1 and every component a weight in [0,1], and never loses a component that is not hidden by its parent.", "quantifier": "all obstacle trees, positions, gammas", "why_tests_cant": "continuum of geometric configurations, real exponent with a pole", "anchors": ["nonlinear_avoidance/multi_obstacle_avoider.py: MultiObstacleAvoider.compute_parent_occlusion_weight"]}
{"id": "C26", "title": "Occlusion array gives the weight to the least occluded components", "statement": "evaluate_occlusion_array returns nonnegative weights of total one; if some entries are positive they are shared proportionally, otherwise the largest entry gets the weight.", "quantifier": "all nonempty lists of reals", "why_tests_cant": "wrong only when no entry is positive and the largest is not last", "anchors": ["nonlinear_avoidance/multi_obstacle_avoider.py: MultiObstacleAvoider.evaluate_occlusion_array"]}
{"id": "C27", "title": "Convergence radius inside obstacles", "statement": "compute_convergence_radiuses returns for each component a value between the configured radius and pi, the configured one for components with gamma >= 1, and pi once the relative depth is below the repulsion limit; __init__ rejects radii outside [pi/2, pi].", "quantifier": "all component counts, gammas, depths, configured radii and limits in ]0,1[", "why_tests_cant": "continuum of depths; boundary values", "anchors": ["nonlinear_avoidance/multi_obstacle_avoider.py: MultiObstacleAvoider.compute_convergence_radiuses", "nonlinear_avoidance/multi_obstacle_avoider.py: MultiObstacleAvoider.__init__"]}
{"id": "C28", "title": "Slow-down factor from convergence is in [0,1]", "statement": "slowfactor_from_convergence returns a number in [0,1] for all recorded rotation weights in [0,1] and all proximities in [-1,1].", "quantifier": "all list lengths and values", "why_tests_cant": "the written upper-bound mask is not applied by numpy, so only a proof over all values shows whether the result can leave [0,1]", "anchors": ["nonlinear_avoidance/multi_obstacle_avoider.py: MultiObstacleAvoider.slowfactor_from_convergence"]}
{"id": "C29", "title": "Proximity scaling is a factor in [0,1] and stops motion into an obstacle in contact", "statement": "compute_safe_scaling, for a unit velocity and an averaged normal of norm at most one, returns a number in [0,1]; it is 1 when the velocity does not point against the averaged normal, and 0 in contact (gamma <= 1) when it points into the obstacle by more than 1e-3. With an averaged normal longer than one it can be undefined (NaN).", "quantifier": "all vectors, gammas, scalings in [0,1] and powers > 0", "why_tests_cant": "real powers of a possibly negative base over a continuum", "anchors": ["nonlinear_avoidance/avoidance/rotational_avoider.py: RotationalAvoider.compute_safe_scaling"]}
{"id": "C30", "title": "Safe magnitude never exceeds the initial speed", "statement": "compute_safe_magnitude either raises ValueError or returns a velocity with the direction of its input and norm at most initial_norm; in contact (gamma <= 1) and pointing into the obstacle it returns zero; a zero input is returned unchanged.", "quantifier": "all vectors, norms, gammas", "why_tests_cant": "continuum of inputs with real powers", "anchors": ["nonlinear_avoidance/avoidance/rotational_avoider.py: RotationalAvoider.compute_safe_magnitude"]}
{"id": "C31", "title": "Sticky-surface magnitude limit", "statement": "_limit_magnitude for unit velocity and unit normals and gammas >= 1 returns the input direction scaled to at most the initial magnitude, is the full magnitude when no normal is opposed, and removes the velocity component into an obstacle in contact.", "quantifier": "all numbers of obstacles, all unit vectors, all gammas >= 1", "why_tests_cant": "unbounded obstacle lists; min over all of them", "anchors": ["nonlinear_avoidance/avoidance/rotational_avoider.py: RotationalAvoider._limit_magnitude"]}
{"id": "C32", "title": "Commanded speed is bounded by the initial speed", "statement": "MultiObstacleAvoider.evaluate returns zero where the initial dynamics vanish, the unmodified initial velocity without obstacles, and otherwise a velocity which, in the frame moving with the obstacles, is not faster than the initial velocity.", "quantifier": "all positions, obstacle sets, dynamics", "why_tests_cant": "the exceptional branch (no weighted component) is reached only when every obstacle has zero weight", "anchors": ["nonlinear_avoidance/multi_obstacle_avoider.py: MultiObstacleAvoider.evaluate_sequence"]}
{"id": "C33", "title": "Without near obstacles RotationalAvoider.avoid returns the initial velocity", "statement": "avoid returns the initial velocity unchanged if the obstacle list is empty or no obstacle gamma lies in [1, cut_off_gamma); obstacles inside (gamma<1, not boundaries) are treated as contact (gamma = 1).", "quantifier": "all environments and positions", "why_tests_cant": "quantifies over every environment and position", "anchors": ["nonlinear_avoidance/avoidance/rotational_avoider.py: RotationalAvoider.avoid", "nonlinear_avoidance/avoidance/rotational_avoider.py: RotationalAvoider.compute_obstacle_gamma"]}
{"id": "C34", "title": "Relative velocity of moving obstacles", "statement": "compute_multiobstacle_relative_velocity is zero for static obstacles, and a robot in contact with a single planar moving obstacle gets exactly the obstacle's velocity at that point (linear + angular x lever + deformation); linear parts are combined with weights of total <= 1 so the result never exceeds the fastest obstacle for purely translating obstacles.", "quantifier": "all obstacle counts, twists, positions", "why_tests_cant": "unbounded obstacle lists, continuum of twists", "anchors": ["nonlinear_avoidance/multi_obstacle_avoider.py: compute_multiobstacle_relative_velocity"]}
{"id": "C35", "title": "The branch walk to the root terminates and yields a parent chain", "statement": "_compute_normal_and_reference_of_branch visits the component, its parent, ... up to the root with no repetition for every tree, and raises beyond ten levels; all node ids inserted into the tangent tree by simple_population_tangent_tree are pairwise distinct so no insertion is rejected as duplicate.", "quantifier": "all obstacle trees of any depth", "why_tests_cant": "needs trees deeper than any example", "anchors": ["nonlinear_avoidance/multi_obstacle_avoider.py: MultiObstacleAvoider._compute_normal_and_reference_of_branch", "nonlinear_avoidance/multi_obstacle_avoider.py: MultiObstacleAvoider._simple_tangent_branch_update"]}
{"id": "C36", "title": "Multi-obstacle bookkeeping is a rooted tree for every history", "statement": "After set_root and any sequence of successful add_component calls the components form a tree rooted at the root: every other component has exactly one parent with a smaller index, get_parent_idx follows that tree, the number of stored local poses equals the number of components.", "quantifier": "all histories of component insertions", "why_tests_cant": "unbounded histories", "anchors": ["nonlinear_avoidance/multi_obstacle.py: MultiObstacle"]}
{"id": "C37", "title": "A rejected component insertion leaves the multi-obstacle unchanged", "statement": "If add_component raises because the parent does not exist, the obstacle keeps its previous components.", "quantifier": "all states and rejected insertions", "why_tests_cant": "failure atomicity ranges over all states", "anchors": ["nonlinear_avoidance/multi_obstacle.py: MultiObstacle.add_component"]}
{"id": "C38", "title": "Collision freedom agrees with the gamma value", "statement": "For a multi obstacle, is_collision_free(x) holds exactly if get_gamma(x) > 1, i.e. if every component has gamma > 1; excluding components can only increase gamma; for containers the same holds over all members; excluding all components raises ValueError.", "quantifier": "all component sets and positions", "why_tests_cant": "unbounded component sets and a continuum of positions", "anchors": ["nonlinear_avoidance/multi_obstacle.py: MultiObstacle.is_collision_free", "nonlinear_avoidance/multi_obstacle_container.py: MultiObstacleContainer"]}
{"id": "C39", "title": "Moving a multi obstacle moves all components rigidly", "statement": "After any sequence of pose updates each component pose is the obstacle pose applied to the component's stored local pose; relative poses of components never change.", "quantifier": "all histories of updates", "why_tests_cant": "drift appears only over histories", "anchors": ["nonlinear_avoidance/multi_obstacle.py: MultiObstacle.update_pose"]}
{"id": "C40", "title": "Multi-boundary container graph consistency", "statement": "After any sequence of appends (with or without chaining to the previous element) parent and children tables agree, every element has a parent with a smaller index or none, and get_level_numbers terminates with level(child)=level(parent)+1; a position is collision free exactly if some boundary contains it.", "quantifier": "all histories of appends", "why_tests_cant": "unbounded histories; level computation is a breadth first loop whose termination depends on acyclicity", "anchors": ["nonlinear_avoidance/multiboundary_container.py: MultiBoundaryContainer"]}
{"id": "C41", "title": "Articulated body alignment closes all joints", "statement": "After align_obstacle_tree every component's own reference point coincides in the global frame with the anchor point on its parent, the root pose and all orientations are unchanged, for every body tree.", "quantifier": "all component trees, poses, reference points", "why_tests_cant": "depends on visiting parents before children in arbitrary trees", "anchors": ["nonlinear_avoidance/multi_body_human.py: MultiBodyObstacle.align_obstacle_tree", "nonlinear_avoidance/multi_body_human.py: MultiBodyObstacle.align_position_with_parent"]}
{"id": "C42", "title": "Projection of a point onto a ray is the nearest point of the ray", "statement": "project_point_onto_ray returns a point of the ray whose distance to the given point is minimal among all points of the ray.", "quantifier": "all points and rays in any dimension", "why_tests_cant": "minimality quantifies over a continuum of competitors", "anchors": ["nonlinear_avoidance/utils.py: project_point_onto_ray"]}
{"id": "C43", "title": "Segment distance and segment weights", "statement": "DynamicsSegment.get_distance is the minimum distance to the segment; the weights over segments are nonnegative and sum to one and all weight goes to a segment that contains the position.", "quantifier": "all segments, positions, numbers of segments", "why_tests_cant": "minimality and unbounded lists; two segments sharing a point is a null set", "anchors": ["nonlinear_avoidance/dynamics/segmented_dynamics.py"]}
{"id": "C44", "title": "Circular dynamics", "statement": "SimpleCircularDynamics is zero at the center, elsewhere tangential on the circle, moves inwards outside and outwards inside the circle, and has the documented speed.", "quantifier": "all positions and radii", "why_tests_cant": "continuum of positions; null set on the circle", "anchors": ["nonlinear_avoidance/dynamics/circular_dynamics.py"]}
{"id": "C45", "title": "Wavy dynamics keep converging", "statement": "WavyRotatedDynamics has the same speed as the linear system it rotates, vanishes only where that vanishes, and never moves away from the attractor for a maximum deviation of at most pi/2.", "quantifier": "all positions and parameters", "why_tests_cant": "sine of a quadratic form takes its extreme values on thin sets", "anchors": ["nonlinear_avoidance/dynamics/wavy_attractor_dynamics.py"]}
{"id": "C46", "title": "Inflation and deflation around an obstacle are inverse to each other", "statement": "In ProjectedRotationDynamics the position transform which deflates the obstacle to a point and the one which inflates it are inverse for points outside, keep the direction from the obstacle center, and shift by exactly the local radius.", "quantifier": "all positions outside, all local radii", "why_tests_cant": "continuum of positions", "anchors": ["nonlinear_avoidance/dynamics/projected_rotation_dynamics.py"]}
{"id": "C47", "title": "Projected convergence weight", "statement": "evaluate_projected_weight is in ]0,1], equals one at or inside the surface and decreases with growing gamma.", "quantifier": "all gammas and positions", "why_tests_cant": "continuum; monotonicity is about all pairs", "anchors": ["nonlinear_avoidance/dynamics/projected_rotation_dynamics.py: ProjectedRotationDynamics.evaluate_projected_weight"]}
{"id": "C48", "title": "K-means region surface", "statement": "KMeansObstacle.get_point_on_surface returns a point on the ray from the cluster center through the position, at distance at most the radius and on the own side of (or on) every separating plane to relevant neighbour clusters, hence no farther from the own center than from any relevant neighbour.", "quantifier": "all cluster sets, positions and radii", "why_tests_cant": "unbounded number of clusters, continuum of directions", "anchors": ["nonlinear_avoidance/kmeans_learner/kmeans_obstacle.py: KMeansObstacle.get_point_on_surface"]}
{"id": "C49", "title": "K-means sequence weights", "statement": "_predict_sequence_weights returns weights in [0,1] that sum to one and are supported on the cluster and its predecessor.", "quantifier": "all cluster chains, positions, gamma values, parent factors in ]0,1]", "why_tests_cant": "continuum of positions; gamma infinite at transparent faces", "anchors": ["nonlinear_avoidance/kmeans_learner/kmeans_motion_learner.py: KMeansMotionLearner._predict_sequence_weights"]}
{"id": "C50", "title": "Learned cluster hierarchy is a chain", "statement": "_fit_cluster_hierarchy connects the clusters into one chain sorted by decreasing mean sequence value with consecutive levels, every cluster but the first has exactly one successor which is the previous one in the order, so following successors from any cluster reaches the attractor cluster.", "quantifier": "all numbers of clusters and sequence values", "why_tests_cant": "unbounded number of clusters, ties", "anchors": ["nonlinear_avoidance/kmeans_learner/kmeans_motion_learner.py: KMeansMotionLearner._fit_cluster_hierarchy"]}
{"id": "C51", "title": "Removing sparse clusters keeps labels consistent", "statement": "_fit_remove_sparse_clusters leaves every data point with a label that indexes an existing cluster, and points of kept clusters are still assigned to the same center.", "quantifier": "all data sets, cluster sizes, any set of sparse clusters", "why_tests_cant": "relabelling in place while iterating over labels; collisions depend on the pattern of removed clusters", "anchors": ["nonlinear_avoidance/kmeans_learner/kmeans_motion_learner.py: KMeansMotionLearner._fit_remove_sparse_clusters"]}
{"id": "C52", "title": "Graph handler operations", "statement": "After any sequence of successful GraphHandler operations every element except roots is registered with exactly one parent and the parent's children contain it, and failing operations leave the graph unchanged.", "quantifier": "all histories", "why_tests_cant": "histories of operations", "anchors": ["nonlinear_avoidance/graph_handler.py: GraphHandler"]}
{"id": "C53", "title": "Runge-Kutta step", "statement": "rk4 leaves equilibria fixed, is exact for constant vector fields, and for a linear scalar field multiplies by the degree-4 Taylor polynomial of the exponential.", "quantifier": "all step sizes, positions, fields", "why_tests_cant": "continuum of fields and step sizes", "anchors": ["nonlinear_avoidance/gmm_learner/math_tools.py: rk4"]}
{"id": "C54", "title": "Fractional weights along a rotation sequence", "statement": "rotate_weighted applies the given fraction of each rotation: each rotation continues from where the partially applied previous one ended, so that weights on two neighbouring rotations interpolate between the vectors of the chain, and a fraction of a whole chain moves along all of its rotations.", "quantifier": "all contiguous sequences, all weights in [0,1]", "why_tests_cant": "tests use one-hot weights, planar sequences or single rotations, where the sign of the base update is invisible", "anchors": ["nonlinear_avoidance/vector_rotation.py: VectorRotationSequence.rotate_weighted"]}
{"id": "C55", "title": "Circular rotation dynamics", "statement": "CircularRotationDynamics returns the constant speed everywhere except in the center, its rotation weight is in ]0,2[ and one exactly on the circle, so it moves outwards inside, tangentially on and inwards outside of the circle, in the requested sense of rotation.", "quantifier": "all positions, radii, approaching factors, orthogonal bases", "why_tests_cant": "continuum of positions; the circle is a null set; clipping of the sigmoid far away", "anchors": ["nonlinear_avoidance/dynamics/circular_dynamics.py: CircularRotationDynamics"]}
{"id": "C56", "title": "Path segments from way points", "statement": "create_segment_from_points builds one segment per leg which lies inside the leg and points from its first to its second way point; the speed along the path is at most the maximum, and zero exactly at the end of the path.", "quantifier": "all lists of way points, margins, positions", "why_tests_cant": "unbounded number of legs; the relation of margin and leg length is not checked by the code", "anchors": ["nonlinear_avoidance/dynamics/segmented_dynamics.py: create_segment_from_points", "nonlinear_avoidance/dynamics/segmented_dynamics.py: WavyPathFollowing.evaluate_magnitude"]}
{"id": "C57", "title": "K-means region membership", "statement": "KMeansObstacle.is_inside (boundary obstacle) is True for positions strictly inside of the region (the ball around the cluster center cut by the planes in the middle to other clusters), and False on its surface and outside.", "quantifier": "all cluster sets, radii, positions", "why_tests_cant": "continuum of positions; the answer on the surface depends on which cluster is stored last", "anchors": ["nonlinear_avoidance/kmeans_learner/kmeans_obstacle.py: KMeansObstacle.is_inside", "nonlinear_avoidance/kmeans_learner/kmeans_obstacle.py: KMeansObstacle.get_gamma"]}
{"id": "C58", "title": "Distance value with a transparent face", "statement": "With a transparent neighbour, KMeansObstacle.get_gamma inside of the region is at least the quotient of the distances of the surface and the position to the center (hence above one), and on the surface it is infinite exactly on the face towards the transparent neighbour and one elsewhere.", "quantifier": "all cluster sets, positions, transparent neighbours", "why_tests_cant": "weights over an unbounded number of planes; continuum of positions", "anchors": ["nonlinear_avoidance/kmeans_learner/kmeans_obstacle.py: KMeansObstacle.get_gamma"]}
{"id": "C59", "title": "K-means region as an obstacle", "statement": "For is_boundary=False, KMeansObstacle.get_gamma returns a number for every position, above one outside and below one inside.", "quantifier": "all cluster sets, positions", "why_tests_cant": "tests use boundary regions; the value is missing only in one branch", "anchors": ["nonlinear_avoidance/kmeans_learner/kmeans_obstacle.py: KMeansObstacle.get_gamma"]}
{"id": "C60", "title": "Projected tangent", "statement": "The tangent computed for an initial direction, an obstacle normal, a reference direction and a convergence radius is a unit vector on the circle of directions at exactly that angle from the inward normal, reached in direction space along the ray from the reference direction through the initial direction. With a radius of at least 90 degrees it never points into the obstacle unless the initial direction is the reference direction. A direction which is already on the circle is kept.", "quantifier": "all unit vectors of any dimension, all radii", "why_tests_cant": "existing tests fix a handful of planar directions; the switch of the base direction and the aligned case are measure-zero", "anchors": ["nonlinear_avoidance/avoidance/rotational_avoider.py: get_projected_tangent_from_vectors"]}
{"id": "C61", "title": "No motion into a touched obstacle", "statement": "When the agent touches (or is inside) exactly one obstacle component, and that component is not occluded by its parent, the commanded velocity in the frame of the obstacles has no part against the outward surface normal of that component, whatever the initial dynamics, the other obstacles and the chain of parents; it is never faster than the initial velocity.", "quantifier": "all dimensions, obstacle trees, positions, initial velocities and settings (convergence radius, repulsion, power) with a well formed direction tree", "why_tests_cant": "involves the weights, the direction tree, its reduction, the tangent projection and the speed scaling together over a continuum of scenes", "anchors": ["nonlinear_avoidance/multi_obstacle_avoider.py: evaluate_sequence, evaluate_avoidance_from_sequence", "nonlinear_avoidance/avoidance/rotational_avoider.py: get_projected_tangent_from_vectors"]}
{"id": "C62", "title": "Dynamics as a sequence of rotations", "statement": "evaluate_dynamics_sequence of a system with an attractor returns one rotation which starts at the direction to the attractor and ends at the direction of the velocity (within the tolerance of nearly equal vectors), None exactly where one of the two vectors vanishes, and never raises.", "quantifier": "all positions and velocity fields of any dimension", "why_tests_cant": "tests sample a few positions; the tolerance near the attractor is never hit", "anchors": ["nonlinear_avoidance/dynamics/sequenced_dynamics.py: evaluate_dynamics_sequence"]}
{"id": "C63", "title": "Rotation to the reference point", "statement": "evaluate_rotation_start_to_end returns the rotation around the given center which turns the direction from the start to the center into the direction from the end to the center, by exactly the angle between them; None at the center or for opposite directions.", "quantifier": "all points of any dimension", "why_tests_cant": "degenerate positions are measure-zero", "anchors": ["nonlinear_avoidance/dynamics/projected_rotation_dynamics.py: evaluate_rotation_start_to_end, evaluate_rotation_position_to_transform"]}
{"id": "C64", "title": "Transport of the reference dynamics", "statement": "vector_rotation_reduction keeps the own sequence at weight zero or without transport rotation; otherwise it returns a sequence of fewer than 100 rotations which starts at the same direction and has a unit end; at weight one the end is the end of the reference dynamics.", "quantifier": "all sequences of related directions up to 50 rotations, any dimension, all weights in [0,1]", "why_tests_cant": "the reduction of the direction tree is a composition of rotations of any depth", "anchors": ["nonlinear_avoidance/multi_obstacle_avoider.py: vector_rotation_reduction"]}
{"id": "C65", "title": "Convergence sequence of a scene", "statement": "compute_convergence_sequence never raises and returns a sequence which starts at the direction to the attractor and ends at a unit vector. Without an obstacle of influence it ends at the initial dynamics. When one component has full influence it ends at the dynamics at the reference point of its obstacle's root. When the dynamics agree everywhere the result agrees with them.", "quantifier": "all scenes: any number of obstacle trees, components, parent chains, any dimension", "why_tests_cant": "composition of weights, rotation trees and parent walks over a continuum of scenes; overlapping influence zones are not tested", "anchors": ["nonlinear_avoidance/multi_obstacle_avoider.py: compute_convergence_sequence"]}
{"id": "C66", "title": "Velocity command of the avoider", "statement": "evaluate returns the zero velocity where the initial dynamics rest or exactly at their attractor. Without obstacles it returns the velocity of the initial dynamics unchanged. With obstacles it never raises; the result is the velocity of the environment plus a part which is not faster than the initial dynamics, and which does not point into the one component the position is in contact with.", "quantifier": "all positions, dynamics, any number of obstacle trees and components, any dimension", "why_tests_cant": "the composition of initial sequence, convergence sequence, avoidance and slow down ranges over a continuum of scenes", "anchors": ["nonlinear_avoidance/multi_obstacle_avoider.py: evaluate, evaluate_sequence"]}
{"id": "C67", "title": "Folding around the attractor", "statement": "Unfolding undoes folding: a position which is not the attractor and not exactly opposite of the obstacle is recovered from its folded image, so that different positions have different images. The reference point of the obstacle stays in place. The folded image has the logarithmic distance as radial and the tangent of half the angle as lateral coordinate, whatever the orthogonal basis. Unfolding does not change its argument.", "quantifier": "all positions, attractors and reference points in 2 to 1000 dimensions, both frames", "why_tests_cant": "a bijection of a continuum; the tests compare single points", "anchors": ["nonlinear_avoidance/dynamics/projected_rotation_dynamics.py: _get_folded_position_opposite_kernel_point, _get_unfolded_position_opposite_kernel_point"]}
{"id": "C68", "title": "Projected position and its weight", "statement": "Positions inside the obstacle are not projected, nor is anything when the attractor is inside. Outside positions stay outside, and different positions are projected to different positions. The weight is in (0, 1] and is one exactly inside and on the surface of the obstacle. The weight of a disc does not depend on the orientation of its frame.", "quantifier": "all star-shaped obstacles, poses, attractors and positions, any dimension", "why_tests_cant": "composition of deflation, folding and inflation over a continuum, with special cases on rays and surfaces", "anchors": ["nonlinear_avoidance/dynamics/projected_rotation_dynamics.py: get_projected_position, evaluate_projected_weight"]}
{"id": "C69", "title": "Contact decides the convergence direction", "statement": "A component has full influence on the convergence direction exactly when the position is in contact with it and its obstacle is at least gamma 2 away from the attractor. In contact with one component the convergence direction is the dynamics at the reference point of the root of its obstacle, whatever the other obstacles. An obstacle which covers the attractor has no influence.", "quantifier": "all scenes of star-shaped components, any number of trees, any dimension", "why_tests_cant": "needs the projection weight of every component of every scene and the whole tree reduction", "anchors": ["nonlinear_avoidance/multi_obstacle_avoider.py: compute_convergence_sequence", "nonlinear_avoidance/dynamics/projected_rotation_dynamics.py: evaluate_projected_weight"]}
{"id": "C70", "title": "Continuation weight of an obstacle", "statement": "The weight with which an obstacle turns the velocity is one in contact, never increases with the distance, lies between zero and the inverse of gamma outside of contact, equals the inverse of gamma when the convergence direction points away from the obstacle, and is either zero at every distance or tends to one at the surface (no jump unless it vanishes everywhere). It vanishes exactly when the convergence direction is the reference direction or the reference lies outside of the convergence circle.", "quantifier": "all gammas above zero, convergence radii, powers, bases and directions of any dimension", "why_tests_cant": "monotonicity and the limit at the surface range over a continuum of distances and directions; the zero set is a measure-zero case", "anchors": ["nonlinear_avoidance/avoidance/rotational_avoider.py: get_smooth_continuation_weight"]}
{"id": "C71", "title": "Pseudo tangent", "statement": "A convergence direction which already points away from the obstacle by at least the convergence radius is kept. Every other one is turned, along the ray in angle space from the reference direction through it, until its angle to the inward direction is exactly the convergence radius. From a radius of a right angle on the result never points into the obstacle. With tail rotation a direction behind is pulled back to the same circle.", "quantifier": "all convergence radii in [0, pi], bases, reference and convergence directions of any dimension", "why_tests_cant": "exact angle for every direction on a sphere of any dimension, including aligned directions", "anchors": ["nonlinear_avoidance/avoidance/rotational_avoider.py: get_pseudo_tangent, get_tangent_convergence_direction"]}
{"id": "C72", "title": "The rotational avoider does not cross a touched surface", "statement": "In contact with an obstacle the velocity returned by avoid does not point into it relative to its motion, whatever the other obstacles; with a sticky surface it is at most as fast as the initial velocity, without it the speed is kept in a static environment. Leaving the surface straight away returns a velocity.", "quantifier": "all environments with one touched obstacle of full importance, any number of other obstacles, any dimension, initial and convergence velocities", "why_tests_cant": "composition of weights, tangents, the tree reduction and the magnitude limit over all scenes; failures sit on exactly opposite directions", "anchors": ["nonlinear_avoidance/avoidance/rotational_avoider.py: avoid, directional_convergence_summing"]}
{"id": "C73", "title": "Opposite neighbours break every mean", "statement": "A direction tree in which a node is opposite to its parent has no weighted mean and no weighted reduction: every evaluation of it is undefined, for any weights, even if the nodes concerned have no weight.", "quantifier": "all rooted trees, node lists and weights, any dimension and any order within levels", "why_tests_cant": "ranges over all trees and weights; tests only try sampled directions, which are never exactly opposite", "anchors": ["nonlinear_avoidance/vector_rotation.py: VectorRotationTree.reduce_weighted_to_sequence, get_weighted_mean, evaluate_all_orientations"]}
{"id": "C74", "title": "Influence of an obstacle before contact", "statement": "Outside of contact an obstacle leaves the velocity as it is exactly when the continuation weight vanishes; otherwise its weight is positive, at most the inverse of gamma and tends to one at the surface. A velocity which heads straight into an obstacle is turned before contact.", "quantifier": "all gammas above one, directions, radii and powers, any dimension", "why_tests_cant": "the weight is a function of continuous directions and distances; the failing region needs the right pair of directions", "anchors": ["nonlinear_avoidance/avoidance/rotational_avoider.py: directional_convergence_summing, get_smooth_continuation_weight, avoid"]}
{"id": "C75", "title": "Averaged sequence of the rotational avoider", "statement": "avoid_sequence returns a sequence from the common start of the initial and the convergence sequence, with a defined unit end direction. In contact with an obstacle of full importance its end does not point into that obstacle, whatever the other obstacles. Obstacles without importance leave the end of the initial sequence. A convergence sequence which ends straight towards the reference point is not turned outside of contact: the result ends as the convergence sequence, or as the initial one without convergence_default.", "quantifier": "all environments, sequences with a common start, both settings of convergence_default and tail_rotation, any dimension up to 1000", "why_tests_cant": "loop over any number of obstacles that builds a tree, then its weighted reduction; needs an invariant", "anchors": ["nonlinear_avoidance/avoidance/rotational_avoider.py: avoid_sequence"]}
{"id": "C76", "title": "Convergence radius per obstacle", "statement": "An obstacle given its own convergence radius turns the velocity in contact to exactly this angle from its inward direction.", "quantifier": "all obstacles in contact, radii and velocities", "why_tests_cant": "an exact angle for all radii and directions", "anchors": ["nonlinear_avoidance/avoidance/rotational_avoider.py: avoid (convergence_radiuses), directional_convergence_summing"]}
{"id": "C77", "title": "Locally rotated linear dynamics", "statement": "The field has the speed min(distance, speed of the reference velocity), is turned from the attractor direction by at most the angle of the reference velocity to the direction of the attractor, and is the linear field where gamma exceeds the maximum. At one position an obstacle further away (larger gamma) turns it by no more. If this angle is below a right angle, every Euler execution with a small step converges to the attractor. The field is defined and continuous everywhere, with a zero only at the attractor.", "quantifier": "all obstacles, attractors, reference velocities, positions and all executions, any dimension", "why_tests_cant": "convergence of infinite executions; positions form a continuum", "anchors": ["nonlinear_avoidance/dynamics/locally_rotated_linear_dynamics.py: LocallyRotatedFromObtacle.__init__, evaluate"]}
{"id": "C78", "title": "Spiraling motion", "statement": "The velocity has the requested speed, advances along the direction by at least a fixed share of it, turns around the axis, and approaches the cylinder of the radius from both sides. Executions advance along the direction without bound. This holds for every center.", "quantifier": "all positions, directions, radii, speeds, centers and executions", "why_tests_cant": "positions and centers form a continuum, executions are infinite", "anchors": ["nonlinear_avoidance/dynamics/spiral_dynamics.py: SpiralingDynamics3D.evaluate"]}
{"id": "C79", "title": "Spiraling attractor", "statement": "The velocity has the requested speed, and its height component points to the height of the attractor. The velocity vanishes at the attractor.", "quantifier": "all positions, attractors, radii and speeds", "why_tests_cant": "positions form a continuum", "anchors": ["nonlinear_avoidance/dynamics/spiral_dynamics.py: SpiralingAttractorDynamics3D.evaluate"]}
{"id": "C80", "title": "Dynamics rotated by obstacles", "statement": "The velocity is the initial one or the linear one, turned at its speed by at most the angle between the two averages over the obstacles. In contact with one obstacle it takes the direction which the initial dynamics have in its center. Nearer obstacles weigh more, the weights sum to at most one. Far from all obstacles, and without obstacles, it is the initial velocity.", "quantifier": "all environments, initial and linear fields, positions, any dimension", "why_tests_cant": "any number of obstacles with continuous distances, arbitrary fields", "anchors": ["nonlinear_avoidance/dynamics/deviation_dynamics.py: ObstacleRotatedDynamics.evaluate"]}
{"id": "C81", "title": "Learned deviation of a constant flow", "statement": "Whatever the regressor predicts, the velocity has the speed of the constant flow and advances along it by a fixed positive share, so every execution advances without bound. Predictions within the limit are reproduced exactly, in angle and in direction.", "quantifier": "all regressors, flows, positions and executions, any dimension", "why_tests_cant": "quantifies over all regressors and over infinite executions", "anchors": ["nonlinear_avoidance/dynamics/nonlinear_deviation.py: DeviationOfConstantFlow.evaluate, evaluate_without_lyapunov_check"]}
{"id": "C82", "title": "Learned perpendicular deviation of linear dynamics", "statement": "The velocity has the speed min(1, distance / prox_distance) * max_velocity. The prediction of each axis brings its coordinate closer to the attractor. The distance to the attractor decreases wherever the predictions in use approach it, in particular without training; with any regressor it decreases. The fit works in every dimension, and the convergence velocity respects the limit of the speed.", "quantifier": "all regressors, attractors and positions", "why_tests_cant": "quantifies over all regressors and a continuum of positions", "anchors": ["nonlinear_avoidance/dynamics/nonlinear_deviation.py: PerpendicularDeviatoinOfLinearDS.evaluate, fit_from_velocities, get_weights, evaluate_convergence_velocity"]}
{"id": "C83", "title": "Weights of the obstacles by gamma", "statement": "The weights sum to one, the obstacles in contact share the whole weight equally, otherwise every obstacle nearer than the cut-off has a positive weight, larger for the nearer one, and no other obstacle has any. Without an obstacle nearer than the cut-off there is no weight at all, and the total influence fades out continuously towards the cut-off.", "quantifier": "all environments, gamma values, cut-off values and powers", "why_tests_cant": "any number of obstacles with continuous distances", "anchors": ["nonlinear_avoidance/nonlinear_rotation_avoider.py: SingularityConvergenceDynamics.compute_gamma_weights"]}
{"id": "C84", "title": "Weighted convergence velocity", "statement": "The convergence direction is the mean of the convergence directions around the obstacles, each with the weight of its obstacle; alone, an obstacle gets its own direction. It stays in every cone around the initial velocity which contains the directions around the obstacles. Far from all obstacles it is the initial velocity. The order of the obstacles in the environment does not matter.", "quantifier": "all environments, velocities and any dimension", "why_tests_cant": "any number of obstacles with continuous weights", "anchors": ["nonlinear_avoidance/nonlinear_rotation_avoider.py: SingularityConvergenceDynamics.evaluate_weighted_dynamics"]}
{"id": "C85", "title": "Convergence velocity around one obstacle", "statement": "The velocity has the speed of the initial dynamics. With full weight it has the direction of the dynamics at the reference point, without weight the initial direction; for dynamics straight to the attractor it runs along the arc between the two directions to the attractor, in proportion to the weight. It deviates from the initial velocity at most by the weight times the sum of the two turning angles. At the attractor and with the obstacle exactly behind it: the initial velocity.", "quantifier": "all initial dynamics, positions, reference points, attractors and weights, any dimension", "why_tests_cant": "arbitrary fields and a continuum of positions and weights", "anchors": ["nonlinear_avoidance/dynamics/projected_rotation_dynamics.py: ProjectedRotationDynamics.evaluate_convergence_around_obstacle"]}
{"id": "C86", "title": "Convergence sequence around one obstacle", "statement": "The sequence starts with the direction from the position to the attractor, passes the direction from the reference point to the attractor, and ends with the dynamics at the reference point. At the attractor and with the obstacle exactly behind it, it is the initial sequence.", "quantifier": "all initial dynamics, positions, reference points, attractors, any dimension", "why_tests_cant": "arbitrary fields and a continuum of positions", "anchors": ["nonlinear_avoidance/dynamics/projected_rotation_dynamics.py: ProjectedRotationDynamics.evaluate_convergence_sequence_around_obstacle", "nonlinear_avoidance/nonlinear_rotation_avoider.py: ConvergenceDynamicsWithoutSingularity.evaluate_convergence_sequence_around_obstacle"]}
{"id": "C87", "title": "Convergence sequence over all obstacles", "statement": "For sequences from a common direction, the convergence sequence is defined and starts there. Without influence of the obstacles it ends like the initial sequence, and with full weight on a single obstacle like the sequence around it. This holds for both kinds of obstacle convergence.", "quantifier": "all environments, weights and sequences, any dimension", "why_tests_cant": "any number of obstacles, sequences of any length with continuous weights", "anchors": ["nonlinear_avoidance/nonlinear_rotation_avoider.py: SingularityConvergenceDynamics.evaluate_weighted_dynamics_sequence"]}
{"id": "C88", "title": "Velocity with singularity convergence", "statement": "At rest and far from all obstacles the velocity is the initial one. In contact with an obstacle, relative to it, the velocity does not point into the obstacle; the speed is at most the initial one, and exactly it without sticky surface.", "quantifier": "all environments with obstacles at rest or moving, initial dynamics, positions, any dimension", "why_tests_cant": "any number of obstacles, a continuum of positions and velocities", "anchors": ["nonlinear_avoidance/nonlinear_rotation_avoider.py: SingularityConvergenceDynamics.evaluate", "nonlinear_avoidance/rotational_avoider.py: RotationalAvoider.avoid"]}
{"id": "C89", "title": "Velocity from sequences with singularity convergence", "statement": "The speed is the magnitude of the initial dynamics. Without obstacles, and where no obstacle is important, the velocity is the initial one. In contact with an obstacle it does not point into it. Where the initial dynamics are at rest the result is zero.", "quantifier": "all environments, initial dynamics, positions, sequences, any dimension", "why_tests_cant": "any number of obstacles, a continuum of positions, sequences of any length", "anchors": ["nonlinear_avoidance/nonlinear_rotation_avoider.py: SingularityConvergenceDynamics.evaluate_sequence", "nonlinear_avoidance/rotational_avoider.py: RotationalAvoider.avoid_sequence"]}
{"id": "C90", "title": "Wall and free space of an obstacle which can be entered", "statement": "A position is inside exactly if it is in the outer obstacle and in none of the hulls; there the velocity is zero. Everywhere else a returned velocity has speed one. Both hold in the frame of the object.", "quantifier": "all objects with any number of hulls, all positions and local attractors, any dimension", "why_tests_cant": "any number of hulls of arbitrary shape and a continuum of positions", "anchors": ["nonlinear_avoidance/multi_hull_and_obstacle.py: MultiHullAndObstacle.is_inside", "nonlinear_avoidance/multi_hull_and_obstacle.py: MultiHullAndObstacle.evaluate", "nonlinear_avoidance/multi_hull_and_obstacle.py: MultiHullAndObstacle._evaluate_weights"]}
{"id": "C91", "title": "Local attractors lead to the attractor", "statement": "After the graph is built and the attractor set, in any order of evaluations every hull with a local attractor points to the common point with the next hull of a way to the attractor; every hull which is connected to the attractor finds one, and an evaluation gives one to all hulls of the position. This holds inside and outside, for any number of entrances, for an attractor common to several hulls, and an attractor in the wall goes to the closest hull.", "quantifier": "all objects, graphs, attractors and sequences of evaluations of any length", "why_tests_cant": "stateful over unbounded sequences of evaluations, any number of hulls", "anchors": ["nonlinear_avoidance/multi_hull_and_obstacle.py: MultiHullAndObstacle.set_attractor", "nonlinear_avoidance/multi_hull_and_obstacle.py: MultiHullAndObstacle.update_shortest_attractor_path", "nonlinear_avoidance/multi_hull_and_obstacle.py: MultiHullAndObstacle.update_shortest_attractor_path_starting_from_outside", "nonlinear_avoidance/multi_hull_and_obstacle.py: MultiHullAndObstacle._assign_local_attractors_along_path"]}
{"id": "C92", "title": "Velocity in one region", "statement": "Where a single region has weight, the velocity turns from the direction of its local attractor towards the tangent of its surface by the weight 1/gamma: tangent on the surface, straight far away, never into the wall. In a moved or turned object the same, in the global frame. Close to the attractor the velocity goes to zero.", "quantifier": "all regions, attractors, positions and poses, any dimension", "why_tests_cant": "a continuum of positions and shapes", "anchors": ["nonlinear_avoidance/multi_hull_and_obstacle.py: MultiHullAndObstacle._get_local_dynamics", "nonlinear_avoidance/multi_hull_and_obstacle.py: MultiHullAndObstacle.evaluate"]}
{"id": "C93", "title": "Graph of hulls and entrances", "statement": "Entrances are numbered from zero without gap, each belongs to one hull and no hull has two. The point of an edge is in the free space of the hulls it joins, its length the way over that point. Hulls in reach with a common point are joined, each pair once. The point of an entrance is outside of the outer obstacle.", "quantifier": "all objects with any number of hulls and all results of the search of common points", "why_tests_cant": "any number of hulls of arbitrary shape", "anchors": ["nonlinear_avoidance/multi_hull_and_obstacle.py: MultiHullAndObstacle.evaluate_hirarchy_and_reference_points", "nonlinear_avoidance/multi_hull_and_obstacle.py: MultiHullAndObstacle._update_intersections_with_outer_obstacle"]}
{"id": "C94", "title": "Weight of an intersection", "statement": "The weight is between zero and one; it is zero exactly in the wall of the hull and outside of the outer obstacle, one where the projection on the outer surface is in the wall, and in between it decreases strictly on the way to the surface. It changes continuously.", "quantifier": "all obstacles, positions and positive power factors", "why_tests_cant": "a continuum of positions and powers", "anchors": ["nonlinear_avoidance/multi_hull_and_obstacle.py: get_boundary_intersection_weight"]}
{"id": "C95", "title": "U-shaped obstacle", "statement": "The solid part of the U-shaped obstacle is the floor and the two side walls, all of the given width, in the box of the given length and height; it is open upwards. Its hull is never left out in the search of entrances.", "quantifier": "all lengths, heights, wall widths and positions", "why_tests_cant": "a continuum of sizes and positions", "anchors": ["nonlinear_avoidance/multi_hull_and_obstacle.py: create_u_shape_obstacle"]}
{"id": "C96", "title": "Container of obstacles which can be entered", "statement": "The velocity is the mean of the velocities of all objects, each in its own state, with speed at most one. Setting an attractor prepares all objects of the container, also those appended later.", "quantifier": "all containers with any number of objects, positions and attractors", "why_tests_cant": "any number of objects with states of their own", "anchors": ["nonlinear_avoidance/multi_hull_and_obstacle.py: MultiRotationalContainer.evaluate", "nonlinear_avoidance/multi_hull_and_obstacle.py: MultiRotationalContainer.set_attractor", "nonlinear_avoidance/multi_hull_and_obstacle.py: MultiRotationalContainer.append"]}
{"id": "C97", "title": "Mixing weights of the learned mixture", "statement": "For a fitted mixture the weights of the components are never negative and proportional to prior times likelihood; their sum is positive and at most one, and exactly one when they are normalized.", "quantifier": "all mixtures, samples, weight factors, any dimension", "why_tests_cant": "a continuum of mixtures and samples", "anchors": ["nonlinear_avoidance/gmm_learner/learner/directional_gmm.py: DirectionalGMM.get_mixing_weights", "nonlinear_avoidance/gmm_learner/learner/directional_gmm.py: DirectionalGMM.get_gaussian_probability"]}
{"id": "C98", "title": "Learned deviation is bounded", "statement": "The predicted velocity has unit length. It turns away from the way to the attractor by a mean of the angles of the components, scaled by a number of at most one: if no component asks for more than a right angle, the velocity never moves away from the attractor.", "quantifier": "all fitted mixtures, powers and positions, any dimension", "why_tests_cant": "a continuum of positions, any number of components", "anchors": ["nonlinear_avoidance/gmm_learner/learner/directional_gmm.py: DirectionalGMM._predict", "nonlinear_avoidance/gmm_learner/learner/base.py: LearningBase.predict"]}
{"id": "C99", "title": "Convergence to the attractor when asked for", "statement": "With the convergence option the angle goes to zero with the square of the distance to the attractor, so in a neighbourhood of it every velocity points towards it. The option which was set for the learner is kept by later predictions.", "quantifier": "all fitted mixtures and positions, powers from zero to one, any dimension", "why_tests_cant": "limits and stateful behaviour over predictions", "anchors": ["nonlinear_avoidance/gmm_learner/learner/directional_gmm.py: DirectionalGMM._predict"]}
{"id": "C100", "title": "Prediction of a batch", "statement": "The samples of a batch are predicted as if each was on its own, and the array of the caller is not changed.", "quantifier": "all mixtures, batches of any size", "why_tests_cant": "batches of any size", "anchors": ["nonlinear_avoidance/gmm_learner/learner/base.py: LearningBase.predict_array", "nonlinear_avoidance/gmm_learner/learner/directional_gmm.py: DirectionalGMM._predict", "nonlinear_avoidance/gmm_learner/learner/directional_gmm.py: DirectionalGMM.transform_initial_to_normalized"]}
{"id": "C101", "title": "Demonstrations are reproduced", "statement": "The angle which is learned for a demonstrated velocity gives, at the same position, back the direction of the velocity. The attractor is the mean of the end points of the demonstrations unless one is given.", "quantifier": "all positions, velocities, attractors, any number of demonstrations", "why_tests_cant": "a continuum of demonstrations", "anchors": ["nonlinear_avoidance/gmm_learner/learner/directional_gmm.py: DirectionalGMM.load_data_from_mat", "nonlinear_avoidance/gmm_learner/learner/gpr_directional.py: DirectionalGPR.load_data_from_mat", "nonlinear_avoidance/gmm_learner/learner/svr_directional.py: DirectionalSVR.load_data_from_mat"]}
{"id": "C102", "title": "Integrated trajectories", "statement": "Every trajectory starts at the given or recorded point and follows Runge-Kutta steps of the learned field until it is within the margin of the origin, where it stops.", "quantifier": "all fields, step sizes, margins, numbers of steps and starting points", "why_tests_cant": "trajectories of any length of any field", "anchors": ["nonlinear_avoidance/gmm_learner/learner/base.py: LearningBase.integrate_trajectory", "nonlinear_avoidance/gmm_learner/learner/directional_gmm.py: DirectionalGMM.integrate_trajectory"]}
{"id": "C103", "title": "Gaussian of a component", "statement": "The likelihood of a component is positive, largest at its mean and symmetric about it; it is the density of the normal distribution with its covariance. The conditional mean moves along the covariance of outputs and inputs.", "quantifier": "all components with regular covariance and all samples, any dimension", "why_tests_cant": "a continuum of samples and covariances", "anchors": ["nonlinear_avoidance/gmm_learner/learner/directional_gmm.py: DirectionalGMM.get_gaussian_probability", "nonlinear_avoidance/gmm_learner/learner/directional_gmm.py: DirectionalGMM.get_mean_yx"]}
{"id": "C104", "title": "Velocities for the training", "statement": "The velocities of the demonstrations keep their direction and are at most one; those above the mean speed have speed one, the others their speed relative to the mean.", "quantifier": "all lists of velocities which are not all zero, any dimension", "why_tests_cant": "lists of any length", "anchors": ["nonlinear_avoidance/gmm_learner/learner/directional_gmm.py: DirectionalGMM.normalize_velocity"]}
{"id": "C105", "title": "Regions cover the demonstrations", "statement": "With a radius factor of at least one half every sample of the data lies in the region of its cluster, the first cluster contains the attractor, and the regions of a cluster and its parent overlap. So a sample is predicted with the dynamics of its cluster.", "quantifier": "all centers, attractors, orders of the clusters, data sets and factors, any dimension and number of clusters", "why_tests_cant": "data sets and numbers of clusters are unbounded", "anchors": ["nonlinear_avoidance/kmeans_learner/kmeans_motion_learner.py: KMeansMotionLearner._fit_region_radius", "nonlinear_avoidance/kmeans_learner/kmeans_motion_learner.py: KMeansMotionLearner.compute_distances_to_neighbours", "nonlinear_avoidance/kmeans_learner/kmeans_motion_learner.py: KMeansMotionLearner.predict"]}
{"id": "C106", "title": "Dynamics outside of the regions", "statement": "Outside of the regions the velocity is a mean of the directions to the close clusters and the linear dynamics, with weights which are not negative and sum up to one, and it changes continuously where the influence of a cluster begins. The closer a region, the more the velocity turns towards it.", "quantifier": "all centers, radii, positions and outside velocities, any dimension", "why_tests_cant": "continuity and a continuum of positions", "anchors": ["nonlinear_avoidance/kmeans_learner/kmeans_motion_learner.py: KMeansMotionLearner._predict_outside_of_obstacle"]}
{"id": "C107", "title": "Local direction points to the parent", "statement": "The direction of the local dynamics which is returned points to the face between the cluster and its parent whenever some direction between the demonstrated one and the one to the parent does.", "quantifier": "all learners, directions and numbers of iterations, any dimension", "why_tests_cant": "a continuum of directions and any number of iterations", "anchors": ["nonlinear_avoidance/kmeans_learner/kmeans_motion_learner.py: KMeansMotionLearner._enforces_direction_is_towards_parent", "nonlinear_avoidance/kmeans_learner/kmeans_motion_learner.py: KMeansMotionLearner._is_pointing_towards_parent"]}
{"id": "C108", "title": "Prediction everywhere", "statement": "A fitted learner predicts a velocity at every position: inside of the region of the nearest cluster from this cluster and its predecessor with weights which sum up to one and without the convergence constraint being dropped, outside from the outside dynamics. A learner from given centers predicts like a fitted one.", "quantifier": "all fitted learners and positions, any dimension and number of clusters", "why_tests_cant": "a continuum of positions", "anchors": ["nonlinear_avoidance/kmeans_learner/kmeans_motion_learner.py: KMeansMotionLearner.predict", "nonlinear_avoidance/kmeans_learner/kmeans_motion_learner.py: KMeansMotionLearner.predict_averaged_lyapunov", "nonlinear_avoidance/kmeans_learner/kmeans_motion_learner.py: KMeansMotionLearner._predict_initial_direction", "nonlinear_avoidance/kmeans_learner/kmeans_motion_learner.py: KMeansMotionLearner.from_centers", "nonlinear_avoidance/kmeans_learner/kmeans_motion_learner.py: KMeansMotionLearner.fit"]}
{"id": "C109", "title": "Fit is repeatable", "statement": "A learner which is fitted again describes only the new data: its graph has the edges of the new hierarchy only, and it predicts like a new learner.", "quantifier": "all sequences of two fits", "why_tests_cant": "histories of fits with any data", "anchors": ["nonlinear_avoidance/kmeans_learner/kmeans_motion_learner.py: KMeansMotionLearner.fit", "nonlinear_avoidance/kmeans_learner/kmeans_motion_learner.py: KMeansMotionLearner._fit_cluster_hierarchy"]}
{"id": "C110", "title": "Hulls of a learned mixture form a tree", "statement": "Creating the graph of the hulls ends for every mixture, after at most as many rounds as there are hulls. The root is the hull whose end point is closest to the attractor, every other hull has exactly one parent, the lists of children agree with the parents, and following the parents leads to the root. A parent has the largest mixing weight of all hulls which were in the graph in earlier rounds.", "quantifier": "all end points, attractors and non-negative mixing weights, any number of hulls", "why_tests_cant": "termination and the shape of the graph for any number of hulls and any weights", "anchors": ["nonlinear_avoidance/gmm_learner/graph.py: create_graph_from_gaussians", "nonlinear_avoidance/gmm_learner/graph.py: _get_assigned_elements"]}
{"id": "C111", "title": "Best child is added first", "statement": "In a round all hulls whose first preference is already in the graph are attached to it. When a later preference decides, only the hull with the largest mixing weight for its parent is attached.", "quantifier": "all graphs under construction, weights and preferences", "why_tests_cant": "any number of hulls and any weights", "anchors": ["nonlinear_avoidance/gmm_learner/graph.py: create_graph_from_gaussians"]}
{"id": "C112", "title": "A hull is left towards its parent", "statement": "The local attractor of a hull is the attractor if the hull contains it, and otherwise lies ahead of the end point in the direction from the center of the hull to the center of its parent. The root is left towards the attractor.", "quantifier": "all graphs, centers, end points and attractors, any dimension", "why_tests_cant": "a continuum of positions and any number of hulls", "anchors": ["nonlinear_avoidance/gmm_learner/graph.py: _get_local_attractor"]}
{"id": "C113", "title": "Relative reference point opens covered walls", "statement": "Within a hull the relative reference point lies on the segment from the center to the position and the relative gamma is at least the ratio of the distances. It equals this ratio exactly when no other hull covers the boundary point, and exceeds every bound close to a boundary point which is covered. Hulls which do not contain the position keep their own reference point.", "quantifier": "all lists of hulls, positions and gamma functions, any dimension", "why_tests_cant": "a limit, and a continuum of positions", "anchors": ["nonlinear_avoidance/multiboundary_container.py: MultiBoundaryContainer.update_relative_reference_point"]}
{"id": "C114", "title": "Attraction of the hulls", "statement": "The weights of the hulls are not negative, zero for the hulls which do not contain the position and sum up to one if some hull contains it. The desired radius is between zero and pi 2^-gamma, less than a right angle within the hull, and zero exactly in the direction of an intersection point whose surface is covered by another hull. The attraction returns a velocity at each position.", "quantifier": "all gamma values, positions, intersection points and weights, any dimension", "why_tests_cant": "a continuum of positions and any number of hulls", "anchors": ["nonlinear_avoidance/multihull_convergence.py: get_weight_gamma_for_hulls", "nonlinear_avoidance/multihull_convergence.py: get_desired_radius", "nonlinear_avoidance/multihull_convergence.py: multihull_attraction"]}
{"id": "C115", "title": "Arch has the given outline and moves as a whole", "statement": "An arch of wall width w and lengths a0, a1 occupies exactly the rectangle of these lengths without a gap between the arms which is open on one side; a position is collision free exactly when it is outside of this shape. After the pose is changed the arch occupies the same shape in the new pose.", "quantifier": "all wall widths, lengths, poses and positions", "why_tests_cant": "a continuum of shapes, poses and positions", "anchors": ["nonlinear_avoidance/arch_obstacle.py: create_arch_obstacle", "nonlinear_avoidance/arch_obstacle.py: BlockArchObstacle.__init__", "nonlinear_avoidance/arch_obstacle.py: BlockArchObstacle.is_collision_free", "nonlinear_avoidance/arch_obstacle.py: BlockArchObstacle.update_obstacles"]}
{"id": "C116", "title": "Arms of the arch are connected to the root", "statement": "The reference point of each arm is strictly inside of the arm and of the root block, and the root is the parent of both arms.", "quantifier": "all wall widths, lengths and poses", "why_tests_cant": "a continuum of shapes and poses", "anchors": ["nonlinear_avoidance/arch_obstacle.py: create_arch_obstacle", "nonlinear_avoidance/arch_obstacle.py: BlockArchObstacle.add_component", "nonlinear_avoidance/arch_obstacle.py: BlockArchObstacle.get_parent_idx"]}
{"id": "C117", "title": "Tree of ellipses", "statement": "A second root or a second parent of a component is rejected and leaves the obstacle unchanged, also when the new parent does not intersect. Following the parents ends at the root. A position is inside exactly when it is inside of some component.", "quantifier": "all sequences of operations, components and positions", "why_tests_cant": "histories of any length, and a walk which has to end for any tree", "anchors": ["nonlinear_avoidance/multi_ellipse_obstacle.py: MultiEllipseObstacle.set_root", "nonlinear_avoidance/multi_ellipse_obstacle.py: MultiEllipseObstacle.set_parent", "nonlinear_avoidance/multi_ellipse_obstacle.py: MultiEllipseObstacle.get_parent_idx", "nonlinear_avoidance/multi_ellipse_obstacle.py: MultiEllipseObstacle.is_inside"]}
{"id": "C118", "title": "Tangents and intersections of ellipses", "statement": "The normalized tangent component has unit length, is perpendicular to the normal and differs from the vector by a part along the reference direction; it is undefined exactly for vectors along the reference direction. The intersection with an ellipse lies on the surface and on the given line, at the position on the line which was found for the unit circle.", "quantifier": "all vectors, normals, reference directions, axes, poses and lines, any dimension", "why_tests_cant": "a continuum of vectors and any dimension", "anchors": ["nonlinear_avoidance/multi_ellipse_obstacle.py: MultiEllipseObstacle.get_normalized_tangent_component", "nonlinear_avoidance/multi_ellipse_obstacle.py: get_intersection_with_ellipse"]}
{"id": "C119", "title": "Convergence directions of a container", "statement": "After the convergence directions are set every obstacle has one, whatever the history of the container. At the center of an obstacle it is the direction of the dynamics. The convergence radius which is given with an obstacle is kept.", "quantifier": "all histories of appending and setting, obstacles, dynamics and attractors, any dimension", "why_tests_cant": "histories of any length and any dynamics", "anchors": ["nonlinear_avoidance/rotation_container.py: RotationContainer.append", "nonlinear_avoidance/rotation_container.py: RotationContainer.set_convergence_directions", "nonlinear_avoidance/rotation_container.py: RotationContainer.get_convergence_direction"]}
{"id": "C120", "title": "Hierarchy of an obstacle of Gaussians", "statement": "Every component is added to the graph exactly once. The root has no parent, every other component has one parent among those added before, the pair being the one with the largest probability of all pairs of an added component and one not yet added. Following the parents leads to the root and children and parents agree.", "quantifier": "all numbers of components, means and probabilities, any dimension", "why_tests_cant": "any number of components, a loop whose rounds depend on real values", "anchors": ["nonlinear_avoidance/gmm_obstacle.py: GmmObstacle.evaluate_hirarchy_and_reference_points"]}
{"id": "C121", "title": "Root of an obstacle of Gaussians", "statement": "The root is the component closest to the center of the means, for any number of components and any dimension.", "quantifier": "all means, any dimension", "why_tests_cant": "a continuum of means and any dimension", "anchors": ["nonlinear_avoidance/gmm_obstacle.py: GmmObstacle.evaluate_hirarchy_and_reference_points"]}
{"id": "C122", "title": "Weights of the Gaussians", "statement": "The weights are not negative and sum to one. Inside of some components these share the weight equally and the others have none. Outside a weight is zero exactly when the component is completely hidden behind its parent, and of components which are not hidden the closer one has the larger weight.", "quantifier": "all components, graphs with a root and positions, any dimension", "why_tests_cant": "a continuum of shapes and positions", "anchors": ["nonlinear_avoidance/gmm_obstacle.py: GmmObstacle.evaluate_gamma_weights", "nonlinear_avoidance/gmm_obstacle.py: GmmObstacle.get_obstacle_occlusion_factor"]}
{"id": "C123", "title": "Gamma and projection of a Gaussian", "statement": "The projection lies on the ray from the center and on the surface, where gamma is one. Gamma is one plus the distance to the projection outside and one minus it inside, and is smallest at the center.", "quantifier": "all components and positions, any dimension", "why_tests_cant": "a continuum of shapes and positions", "anchors": ["nonlinear_avoidance/gmm_obstacle.py: GmmObstacle.get_gamma_proportional", "nonlinear_avoidance/gmm_obstacle.py: GmmObstacle.get_gamma", "nonlinear_avoidance/gmm_obstacle.py: GmmObstacle.project_point_on_surface"]}
{"id": "C124", "title": "Frame of the unit circle of a Gaussian", "statement": "The transformations to and from the frame of the unit circle are inverse to each other. From a reference point inside every other position is projected to a point of the surface on the ray through the position. Gamma is one there.", "quantifier": "all axes, lengths, reference points and positions, any dimension", "why_tests_cant": "a continuum of shapes and positions", "anchors": ["nonlinear_avoidance/gmm_obstacle.py: GmmObstacle.transform_position_to_unitcircle_frame", "nonlinear_avoidance/gmm_obstacle.py: GmmObstacle.transform_position_from_unitcircle_frame", "nonlinear_avoidance/gmm_obstacle.py: GmmObstacle.project_point_on_surface_with_offcenter_point"]}
{"id": "C125", "title": "Normal and derivative of gamma", "statement": "The normal is a unit vector which points away from the center, and gamma changes along a vector in proportion to its product with the normal; at the center there is a default. The reference direction is a unit vector at all positions. get_gamma_derivative is the derivative of the power of the proportional gamma.", "quantifier": "all components, positions, directions and powers, any dimension", "why_tests_cant": "derivatives at a continuum of positions", "anchors": ["nonlinear_avoidance/gmm_obstacle.py: GmmObstacle.get_normal_direction", "nonlinear_avoidance/gmm_obstacle.py: GmmObstacle.get_reference_direction", "nonlinear_avoidance/gmm_obstacle.py: GmmObstacle.get_gamma_derivative"]}
{"id": "C126", "title": "Kernel points and direction at the root", "statement": "A kernel point which is set is returned afterwards. At the root a velocity which points towards the kernel point of the root is projected to the complement of the direction from it; a velocity pointing away is returned unchanged.", "quantifier": "all obstacles, positions and velocities, any dimension", "why_tests_cant": "a continuum of positions and velocities", "anchors": ["nonlinear_avoidance/gmm_obstacle.py: GmmObstacle.set_kernel_point", "nonlinear_avoidance/gmm_obstacle.py: GmmObstacle.get_kernel_point", "nonlinear_avoidance/gmm_obstacle.py: GmmObstacle.get_root_rotation_direction"]}
{"id": "C127", "title": "Mean normal of the Gaussians", "statement": "The mean normal is defined at every position away from the centers and is a unit vector. With a single component with weight it is the normal of this component.", "quantifier": "all components, weights and positions, any dimension", "why_tests_cant": "a continuum of shapes and positions, equality cases", "anchors": ["nonlinear_avoidance/gmm_obstacle.py: GmmObstacle.evalute_weighted_reference_and_normal_offset"]}
{"id": "C128", "title": "Reference point between two Gaussians", "statement": "The reference point of a component lies inside of it and of its parent. For equal centers it is the center, for equal precisions the middle between the centers.", "quantifier": "all pairs of components and parameters of the descent, any dimension", "why_tests_cant": "a continuum of shapes, an iteration with any number of rounds", "anchors": ["nonlinear_avoidance/gmm_obstacle.py: GmmObstacle.get_intersection_of_ellipses"]}
{"id": "C129", "title": "Weight of the convergence around an obstacle", "statement": "The weight is in ]0, 1], one up to the surface, below one outside, does not increase with gamma and vanishes far away; the function of the module and the one of the class agree.", "quantifier": "all values of gamma", "why_tests_cant": "a continuum of values, limit behaviour", "anchors": ["nonlinear_avoidance/nonlinear_rotation_avoider.py: get_convergence_weight", "nonlinear_avoidance/nonlinear_rotation_avoider.py: ConvergenceDynamicsWithoutSingularity.evaluate_projected_weight"]}
{"id": "C130", "title": "Trajectories of the comparison", "statement": "A trajectory starts at the start, each step follows the direction of the field with length delta_time, no point is in collision and there are at most it_max points. It has fewer points only if it stops, at a collision or at a local minimum, and the evaluation counts exactly those which stop at a local minimum as local minima.", "quantifier": "all fields, starts, collision functions, step sizes, margins and numbers of iterations, any dimension", "why_tests_cant": "any field and any number of iterations", "anchors": ["nonlinear_avoidance/comparison/comparison_multiobstacle_vectorfield.py: integrate_trajectory", "nonlinear_avoidance/comparison/evaluation_trajectories.py: TrajectoryEvaluator.run"]}
{"id": "C131", "title": "Error to the circular path", "statement": "The mean squared error to the path is not negative, and zero exactly when all points are on the circle.", "quantifier": "all trajectories, centers and radii, any dimension", "why_tests_cant": "a continuum of trajectories of any length", "anchors": ["nonlinear_avoidance/comparison/evaluation_trajectories.py: mean_squared_error_to_path", "nonlinear_avoidance/comparison/evaluation_trajectories_with_std.py: mean_squared_error_to_path"]}
{"id": "C132", "title": "Accelerations of a trajectory", "statement": "The mean squared acceleration is not negative, zero exactly when all steps are equal, and falls with the fourth power of the time step. The mean product of consecutive directions is between -1 and 1, one exactly when all moving steps have the same direction, does not depend on the time step, and exists when two steps move.", "quantifier": "all trajectories and time steps, any dimension", "why_tests_cant": "a continuum of trajectories of any length, equality cases", "anchors": ["nonlinear_avoidance/comparison/evaluation_trajectories.py: mean_squared_acceleration, dot_product_acceleration, normalize_velocities"]}
{"id": "C133", "title": "Deviation of a trajectory from a field", "statement": "The mean product with the field is between -1 and 1, and one for a trajectory which follows the field wherever it moves, in particular for the trajectory simulated from the field itself. The squared deviation of such a trajectory is zero.", "quantifier": "all fields, trajectories and time steps, any dimension", "why_tests_cant": "a continuum of fields and trajectories of any length", "anchors": ["nonlinear_avoidance/comparison/evaluation_trajectories.py: dot_product_velocity_deviation, mean_squared_velocity_deviation"]}
{"id": "C134", "title": "Summary of the runs along a path", "statement": "The runs which are compared are exactly those on which all methods converge. The fraction of converged runs refers to all runs, the means and spreads to the compared runs.", "quantifier": "all tables of any length", "why_tests_cant": "any number of tables and runs", "anchors": ["nonlinear_avoidance/comparison/evaluation_path_following.py: TrajectoryEvaluator.run, get_converged"]}
{"id": "C135", "title": "A path of segments is followed", "statement": "On a path of segments which nowhere turns straight back, the command has speed one, reduced in the last unit of distance to the attractor. On a segment it points along the segment. It is an array at every position, whatever the number of segments.", "quantifier": "all paths and positions, any dimension", "why_tests_cant": "any number of segments and a continuum of positions", "anchors": ["nonlinear_avoidance/dynamics/segmented_dynamics.py: WavyPathFollowing.evaluate, evaluate_dynamics_sequence"]}
{"id": "C136", "title": "Dynamics with a moving base", "statement": "An update moves the base along its field: the full step while the position is within the influence radius, none beyond twice the radius, never more than the full step, and depending continuously on the position. A base pulled towards a target stays on the segment to the target through any sequence of calls. An evaluation updates the base, as its description says.", "quantifier": "all fields, bases, radii, positions and sequences of calls, any dimension", "why_tests_cant": "sequences of calls of any length, continuity", "anchors": ["nonlinear_avoidance/dynamics/circular_dynamics.py: DynamicDynamics.update_base, evaluate"]}
{"id": "C137", "title": "Search of a point common to two obstacles", "statement": "The search starts in the middle of the two centers, follows the weighted normals, and ends when these balance or the iterations are used up. Where it ends balanced, the powers of the two gamma values differ by less than the tolerance. For two obstacles with common points, the result with default arguments is such a point.", "quantifier": "all obstacles, factors, powers, step sizes and numbers of iterations", "why_tests_cant": "any obstacles and any number of iterations", "anchors": ["nonlinear_avoidance/utils.py: gamma_normal_gradient_descent"]}
{"id": "C138", "title": "Weights of the deviation from the tangent", "statement": "The deviation weight is between 0 and 1, none without deviation, full for a full deviation or a full weight, increasing in both. The share of the nonlinear direction is between none and the weight, grows with the nonlinear deviation and falls with that of the convergence direction. The projected velocity lies between the velocity and the tangent, by at most the weight, and velocities beyond the tangent are kept. All change continuously, and no velocity along the surface is turned into the obstacle.", "quantifier": "all weights, deviations, radii and velocities, any dimension", "why_tests_cant": "a continuum of inputs, monotonicity and continuity", "anchors": ["nonlinear_avoidance/avoidance/rotational_avoider.py: _get_directional_deviation_weight, _get_nonlinear_inverted_weight, _get_projected_velocity"]}
{"id": "C139", "title": "Averaged normal of all obstacles", "statement": "The averaged normal is not longer than one. At contact it is the mean of the normals of the touched components, otherwise their sum weighted by the inverse power of gamma and limited. The gamma value returned is the smallest one. A velocity into a touched obstacle is stopped.", "quantifier": "all lists of components of any length, gamma values and normals, any dimension", "why_tests_cant": "any number of obstacles", "anchors": ["nonlinear_avoidance/multi_obstacle_avoider.py: MultiObstacleAvoider.compute_averaged_normal_and_gamma, evaluate_old", "nonlinear_avoidance/avoidance/rotational_avoider.py: compute_safe_magnitude"]}
{"id": "C140", "title": "Normal of a k-means region", "statement": "The normal of a region is a unit vector at every position, on the side of the reference direction (against it for an obstacle which is no boundary), and asking for it does not change the position handed in. Outside of the region it is radial where the own center is the closest, and the normal of the plane between the centers beyond one face.", "quantifier": "all sets of centers, radii and positions, any dimension", "why_tests_cant": "any number of centers and a continuum of positions, with special cases on faces and spheres", "anchors": ["nonlinear_avoidance/kmeans_learner/kmeans_obstacle.py: KMeansObstacle.get_normal_direction, get_reference_direction"]}
{"id": "C141", "title": "Gamma without transition and sampled surface of a k-means region", "statement": "Gamma without the transition to other regions is at least one exactly inside of a region, one exactly on its surface, and inverse to the distance to the center along each ray. For an obstacle it is the other way round. The sampled surface is a closed line of surface points of the region.", "quantifier": "all sets of centers, radii, positions and numbers of samples", "why_tests_cant": "a continuum of positions, any number of samples", "anchors": ["nonlinear_avoidance/kmeans_learner/kmeans_obstacle.py: KMeansObstacle._get_gamma_without_transition, evaluate_surface_points"]}
{"id": "C142", "title": "Conversion of an articulated body to an obstacle of components", "statement": "Converting a body gives an obstacle with the same components in the same order, each with its shape, its reference point and its parent, placed by the base pose and its pose in the body. The body itself stays where it is.", "quantifier": "all bodies built by set_root and add_component, all base poses", "why_tests_cant": "any number and arrangement of components", "anchors": ["nonlinear_avoidance/multi_body_human.py: transform_from_multibodyobstacle_to_multiobstacle, MultiBodyObstacle.get_parent_idx", "nonlinear_avoidance/multi_obstacle.py: MultiObstacle.add_component"]}
{"id": "C143", "title": "Tracking cycles of an articulated body", "statement": "After any number of tracking cycles one more succeeds: each filter has run over the measurements of its own id only, the robot stands where it was measured, the root stands where it was measured at its fixed height and turned around z, every joint is closed, every limb points to its measured position or is fixed to its parent. A limb which is not measured in a cycle keeps its orientation.", "quantifier": "all bodies, filters, sequences of cycles and of measurements", "why_tests_cant": "unbounded sequences of cycles with any set of measurements, any tree", "anchors": ["nonlinear_avoidance/multi_body_human.py: MultiBodyObstacle.update_using_optitrack, optitrack_indeces, align_position_with_parent"]}
{"id": "C144", "title": "Orientation of a limb from its measured position", "statement": "The orientation a limb gets from its position is a unit quaternion which turns the z axis to the direction from the joint to the position.", "quantifier": "all directions", "why_tests_cant": "a continuum of directions with special cases", "anchors": ["nonlinear_avoidance/multi_body_human.py: MultiBodyObstacle.update_orientation_based_on_position"]}
{"id": "C145", "title": "Gamma and lookup of an articulated body", "statement": "Gamma of a body is that of its closest component, at most one exactly when a component is reached, and not changed by a conversion with the default base. A component is found by its name, the first one if several have it.", "quantifier": "all bodies and positions", "why_tests_cant": "any number of components, a continuum of positions", "anchors": ["nonlinear_avoidance/multi_body_human.py: MultiBodyObstacle.get_gamma, get_obstacle_id_from_name"]}
{"id": "C146", "title": "Rotated convergence direction", "statement": "A direction which does not point at the obstacle is kept. Any other one is moved along the line from the reference direction, away from it, at most to the circle of the given radius: not at all for weight zero, to the circle for weight one, farther for larger weights. It moves away from the normal if the reference direction is no farther from the normal. A direction along the reference direction gives none.", "quantifier": "all dimensions from two, bases, directions, weights from zero and radii up to pi", "why_tests_cant": "The tests check one position at two obstacles; the claim is about every pair of directions and every weight.", "anchors": ["nonlinear_avoidance/avoidance/rotational_avoider.py:886-926"]}
{"id": "C147", "title": "Projected nonlinear direction", "statement": "A nonlinear direction turned from the base direction by the radius or more, or with weight zero, is kept. Otherwise the result lies between the nonlinear and the converging direction, is turned farther from the base direction and with full weight exactly by the radius if the convergence is turned that far. If the way between two directions outside crosses the circle, the projection is the crossing next to the convergence; if the line misses it, the convergence.", "quantifier": "all dimensions from two, bases, pairs of unit directions, weights in [0, 1] and radii", "why_tests_cant": "The check of the tests that a direction is in between returns before it compares; the order of two roots decides about the result and only some pairs of directions show it.", "anchors": ["nonlinear_avoidance/avoidance/rotational_avoider.py:575-725"]}
{"id": "C148", "title": "End point of a Gaussian", "statement": "The end point of a Gaussian lies from its mean in the direction of the velocity there, on the ellipse of its covariance at the Mahalanobis distance sqrt 2, hence not closer than the short and not farther than the long half axis.", "quantifier": "all positive definite covariances of the plane, results of eigh, means and directions", "why_tests_cant": "The eigenvectors are given up to sign; a run shows the result for one choice of the library.", "anchors": ["nonlinear_avoidance/gmm_learner/graph.py:203-256"]}
{"id": "C149", "title": "Gradients and the rotation of the modulation", "statement": "Along the gradient the distance to the attractor shrinks by the length of the step; the projected one is the same everywhere. The rotation of the modulation turns the velocity to the direction of the modulated one without changing its length and is the identity for a standing or stopped agent. The projected gamma and the convergence sequence around an obstacle are computed.", "quantifier": "all dimensions from two, positions, velocities, modulations and gamma values", "why_tests_cant": "The tests call the functions for figures only and check nothing.", "anchors": ["nonlinear_avoidance/dynamics/projected_rotation_dynamics.py:93-118", "nonlinear_avoidance/dynamics/projected_rotation_dynamics.py:399-447", "nonlinear_avoidance/dynamics/projected_rotation_dynamics.py:500-548"]}
{"id": "C150", "title": "Tangent direction around obstacles", "statement": "A velocity of zero is returned as it is. The weights of the branches and of the velocity are non-negative and sum to one. Touching one component of the only obstacle, the result is the local velocity led through the tangents of the chain from the root to this component and does not point into it, unless the direction arriving there points straight along the reference direction. Away from all obstacles the result is the direction of the velocity.", "quantifier": "all dimensions from two, trees of components, velocities and positions; any earlier use of the avoider", "why_tests_cant": "No test calls get_tangent_direction; the result depends on attributes which only an earlier evaluation creates, and on the number of components with influence.", "anchors": ["nonlinear_avoidance/multi_obstacle_avoider.py:453-471", "nonlinear_avoidance/multi_obstacle_avoider.py:832-913", "nonlinear_avoidance/multi_obstacle_avoider.py:1059-1088", "nonlinear_avoidance/multi_obstacle_avoider.py:1393-1463"]}
{"id": "C151", "title": "Speed of the earlier evaluation", "statement": "With obstacles at rest, the result of evaluate_old has the tangent direction and at most the speed of the initial velocity: the full speed if it does not point against the mean normal, none if it does in contact. An agent touching a moving obstacle is carried along with it.", "quantifier": "all positions, velocities, components and obstacle velocities", "why_tests_cant": "The function is not tested; the claim is about every combination of normals and gamma values.", "anchors": ["nonlinear_avoidance/multi_obstacle_avoider.py:379-419"]}
{"id": "C152", "title": "Regression of a mixture", "statement": "The regression of a mixture of Gaussians lies in the convex hull of the conditional means of its components; with convergence to an attractor it lies between these means and zero, is zero at the attractor and fades with a power of the distance, also for normalized data.", "quantifier": "all mixtures with regular covariances, samples, selections of inputs, attractors and parameters", "why_tests_cant": "The function is not tested; hull and decay are claims about a continuum of samples.", "anchors": ["nonlinear_avoidance/gmm_learner/direction_space.py:185-328"]}
{"id": "C153", "title": "Remaining uncertainty", "statement": "The conditional covariance of the outputs is positive semi-definite and never larger than their covariance without knowledge of the inputs; an output which is one of the inputs has no remaining variance.", "quantifier": "all covariance matrices, also singular ones, and all selections of inputs and outputs", "why_tests_cant": "A statement about all matrices and all directions.", "anchors": ["nonlinear_avoidance/gmm_learner/learner/directional_gmm.py:497-523"]}
{"id": "C154", "title": "Intersection point of two obstacles", "statement": "The intersection point of two overlapping ellipses lies in both of them including their margins, and there is none if they do not overlap. For a centrally symmetric intersection it is the center, and it exists for an ellipse and a polygon in both orders.", "quantifier": "all ellipses given by axes or half axes, positions, orientations and margins; every drawing of a circle by corners on it", "why_tests_cant": "A statement about a continuum of shapes and positions; the function has no test.", "anchors": ["nonlinear_avoidance/geometry.py:17-81"]}
{"id": "C155", "title": "Intersection points of walls", "statement": "After update_intersection_graph each wall with a parent has a point which lies in the wall and in its parent, a wall without parent has none; the boundary point is on the surface of the chosen wall in the direction of this point, and asking for it without a point raises.", "quantifier": "all containers whose parents have smaller indices, all shapes, positions and histories of appends", "why_tests_cant": "A statement about all graphs of walls and positions; the tests only place walls around the origin.", "anchors": ["nonlinear_avoidance/multiboundary_container.py:22-39", "nonlinear_avoidance/multiboundary_container.py:141-189", "nonlinear_avoidance/multiboundary_container.py:316-338"]}
{"id": "C156", "title": "Constant flow fitted to demonstrations", "statement": "Fitting the deviation of a constant flow accepts demonstrations of the dimension of the flow with one velocity per position and refuses others. With a regressor which reproduces its samples, the field reproduces the direction of each demonstration within the limit with the speed of the flow, and a demonstration beyond the limit is followed with the deviation of the limit, to the same sides.", "quantifier": "all dimensions from two, flows, bases, demonstrations with nonzero velocities at distinct positions, interpolating regressors", "why_tests_cant": "A statement about all demonstrations and regressors; tests fit one data set and plot it.", "anchors": ["nonlinear_avoidance/dynamics/nonlinear_deviation.py:85-146"]}
{"id": "C157", "title": "Perpendicular deviation fitted to demonstrations", "statement": "In the plane, with a regressor which reproduces its samples, a demonstration whose direction is within the limit of the axes in use is reproduced with the speed of the field; on an axis without demonstrations on its side the field points straight at the attractor; positions and velocities in different numbers raise. The predicted deviation is between -1 and 1, zero exactly for a velocity along the position, and has the sign of the turn.", "quantifier": "all attractors, demonstrations with nonzero velocities at distinct positions, interpolating regressors, second columns of the bases", "why_tests_cant": "A statement about all demonstrations and regressors; tests fit one data set and plot it.", "anchors": ["nonlinear_avoidance/dynamics/nonlinear_deviation.py:236-279", "nonlinear_avoidance/dynamics/nonlinear_deviation.py:284-315", "nonlinear_avoidance/dynamics/nonlinear_deviation.py:337-350"]}
{"id": "C158", "title": "The learned motion follows its demonstrations", "statement": "In the plane, fitting the local dynamics succeeds when every cluster has demonstrations and their mean velocity does not point away from the parent. With a regressor which reproduces its samples, each local dynamics follows the direction of the demonstrations of its cluster and of the neighbouring clusters which are within its limits, with a speed of at most one. At such a demonstration the prediction passes this direction to the avoidance of the region, whatever the share of the neighbour, with a unit convergence direction and a convergence radius in [0, pi].", "quantifier": "all learners from a fit, demonstrations with nonzero velocities at distinct positions, interpolating regressors, labels, avoidance functions", "why_tests_cant": "A statement about all demonstrations, clusters and regressors; tests fit one handwritten data set and plot it.", "anchors": ["nonlinear_avoidance/kmeans_learner/kmeans_motion_learner.py:364-414", "nonlinear_avoidance/kmeans_learner/kmeans_motion_learner.py:416-489", "nonlinear_avoidance/kmeans_learner/kmeans_motion_learner.py:509-564"]}
{"id": "C159", "title": "The weighted mean of a tree stays near the root", "statement": "For non-negative weights of sum at most one, the angle between the weighted mean direction and the direction of the root is at most the weighted sum of the lengths of the paths from the root, a length being the sum of the angles between consecutive directions. In particular the mean of a tree whose directions all equal the root's is that direction.", "quantifier": "all rooted trees of any dimension from two on whose neighbouring directions are not opposite and are equal or told apart by the comparison, all weights of sum in (0, 1]", "why_tests_cant": "A bound for trees of any shape and depth; tests evaluate a few fixed trees.", "anchors": ["nonlinear_avoidance/vector_rotation.py:652-872"]}
{"id": "C160", "title": "Avoiders without attractor", "statement": "The convergence dynamics created for dynamics with an attractor is the projection around the attractor whatever the reference dynamics given. Without an attractor a reference is required, and asking a second time for the creation always raises. The avoider created without attractor has a convergence direction equal to the field's wherever the field and the reference have the same direction everywhere, for any number of obstacle trees around the position; it raises as soon as the field's direction at the reference point of the first obstacle differs from the one at the position, or the reference's direction at the reference point of a further component differs from the field's.", "quantifier": "all dynamics, all positions outside of the obstacles, all lists of obstacle trees with less than 99 components on the way to the root, any dimension from two on", "why_tests_cant": "Holds for every field, scene and tree shape; tests use one field which is almost uniform.", "anchors": ["nonlinear_avoidance/multi_obstacle_avoider.py:184-190", "nonlinear_avoidance/multi_obstacle_avoider.py:239-289", "nonlinear_avoidance/multi_obstacle_avoider.py:473-476", "nonlinear_avoidance/multi_obstacle_avoider.py:502-657", "nonlinear_avoidance/nonlinear_rotation_avoider.py:68-105"]}
{"id": "C161", "title": "Links of graph elements", "statement": "Roots created with different values, linked only while they have no parent and deleted while they are in the graph always stay linked both ways: the parent of an element lists it as child exactly once and vice versa, and every such call succeeds. A deletion takes exactly this element out of the graph, frees its children and leaves no other element referring to it; the stored root is not updated. An element added with add_element_with_parent is unknown to its parent and cannot be deleted (ValueError). Elements are compared by value, so with equal values a deletion can take out another element.", "quantifier": "all histories of calls of any length, all handlers reached by them, all recursion limits", "why_tests_cant": "An invariant over all histories of calls; tests run single short ones.", "anchors": ["nonlinear_avoidance/graph_handler.py:16-46", "nonlinear_avoidance/graph_handler.py:49-69"]}
{"id": "C162", "title": "Weighted means follow the frame", "statement": "Giving all directions of a tree in another frame of R^n (any rotation or reflection) gives the same weighted mean, in the new frame. As a consequence the mean stays in every hyperplane through the origin that contains all directions of the tree. The order inside the levels, left-overs of earlier calls and the base vectors chosen for vanishing rotations do not matter. Directions of a parent and child must not be opposite and must be equal or differ by more than the tolerance of allclose in both frames; the weights are not negative with a positive sum of at most one.", "quantifier": "all dimensions n >= 2, all rooted trees, all frames, all weights, orders and stores", "why_tests_cant": "Tests compare single trees in a single frame; the symmetry holds for all trees and all rotations and reflections.", "anchors": ["nonlinear_avoidance/vector_rotation.py:109-137", "nonlinear_avoidance/vector_rotation.py:566-862"]}
{"id": "C163", "title": "Weighted means are continuous in the weights", "statement": "If the weights of the nodes of a tree converge, the weighted means converge in every entry to the mean for the limit of the weights. Nodes may lose their weight in the limit, whole branches or levels may drop out, and the rotations of a level may cancel: the mean does not jump, although the list of rotations of the reduction does change its length. Directions of a parent and child must not be opposite and must be equal or differ by more than the tolerance of allclose; the weights are not negative with a positive sum of at most one.", "quantifier": "all dimensions n >= 2, all rooted trees, all convergent sequences of weights, all left-overs of earlier calls", "why_tests_cant": "A limit statement over all sequences of weights, including those where nodes, branches or levels lose their weight.", "anchors": ["nonlinear_avoidance/vector_rotation.py:652-862"]}
{"id": "C164", "title": "Names and nodes without weight do not matter for the mean", "statement": "If one tree contains another one, under any one-to-one renaming of its nodes, the weighted mean of nodes of the smaller tree is the same in both. So nodes without weight anywhere (below, beside or between the levels of the nodes with weight) do not change the mean, nor do the identifiers of the nodes or their order. In particular every history of further successful add_node and add_sequence calls leaves the mean of the earlier nodes unchanged, as long as no node is opposite to its parent or merely numerically close to it.", "quantifier": "all dimensions n >= 2, all pairs of rooted trees, all renamings, all weights that are not negative with a positive sum of at most one, all histories of insertions", "why_tests_cant": "A relation between two runs over all pairs of trees, renamings and weights.", "anchors": ["nonlinear_avoidance/vector_rotation.py:454-555", "nonlinear_avoidance/vector_rotation.py:652-862"]}
{"id": "C165", "title": "Weighted means are continuous in the directions and weights", "statement": "If the directions stored in a tree of fixed shape and the weights of its nodes converge at the same time, the weighted means converge in every entry to the mean of the limit tree for the limit weights. Parent and child may have the same direction, nodes may lose their weight and rotations of a level may cancel in the limit. Neither in the sequence nor in the limit may a child be opposite to its parent, or differ from it by no more than the tolerance of allclose without being equal to it.", "quantifier": "all dimensions n >= 2, all rooted trees, all convergent sequences of directions and weights, all left-overs of earlier calls", "why_tests_cant": "A limit statement over all sequences of trees and weights.", "anchors": ["nonlinear_avoidance/vector_rotation.py:118-154", "nonlinear_avoidance/vector_rotation.py:652-862"]}
{"id": "C166", "title": "The order of the obstacles and idle obstacles do not matter", "statement": "The velocity which the multi-obstacle avoider commands is the same for every order in which the obstacles are listed (and, in the plane, for every order of the moving obstacles behind the relative velocity). Obstacles for which there is no need to turn (rotation weight zero) can be added or removed, at any place of the list, without any change of the velocity, as long as one obstacle remains; obstacles all of whose components have no weight do not change the direction, the set of weights or the weighted normals.", "quantifier": "all dimensions n >= 2 (the plane for moving obstacles), all scenes: any number of obstacle trees of any shape, all positions, velocities, powers and radiuses", "why_tests_cant": "All permutations and insertions for all scenes; the result is computed through a tree whose node names and insertion order change with the list.", "anchors": ["nonlinear_avoidance/multi_obstacle_avoider.py:78-102", "nonlinear_avoidance/multi_obstacle_avoider.py:290-364", "nonlinear_avoidance/multi_obstacle_avoider.py:727-813", "nonlinear_avoidance/multi_obstacle_avoider.py:967-1006", "nonlinear_avoidance/multi_obstacle_avoider.py:1300-1391"]}
{"id": "C167", "title": "The commanded velocity does not depend on the frame or on the unit of length", "statement": "If the whole scene (robot, reference and attraction directions, obstacles with their velocities and deformations) is turned, mirrored, moved to another origin and measured in another unit of length, the multi-obstacle avoider commands the velocity that is the old one turned, mirrored and rescaled in the same way, and raises the same errors. The weights, the radiuses of convergence and the slow-down are the same numbers in all frames and units. The arbitrary choices inside the code (base vectors of vanishing rotations, order inside the levels, tangent when heading straight on) do not show.", "quantifier": "all dimensions n >= 2, all orthogonal maps, translations and positive scale factors, all scenes: any number of obstacle trees of any shape, all positions, directions, magnitudes, powers and radiuses", "why_tests_cant": "All rigid motions, reflections and scalings of all scenes; the result goes through tangent walks, a tree of rotations and its reduction, whose base vectors all depend on the frame.", "anchors": ["nonlinear_avoidance/multi_obstacle_avoider.py:105-163", "nonlinear_avoidance/multi_obstacle_avoider.py:290-364", "nonlinear_avoidance/multi_obstacle_avoider.py:727-813", "nonlinear_avoidance/multi_obstacle_avoider.py:916-1057", "nonlinear_avoidance/multi_obstacle_avoider.py:1090-1130", "nonlinear_avoidance/multi_obstacle_avoider.py:1216-1391", "nonlinear_avoidance/multi_obstacle_avoider.py:1465-1490"]}
{"id": "C168", "title": "The whole velocity command, with its convergence direction, follows the frame and the unit of length", "statement": "If the scene and the dynamical systems are described in another frame (turned, mirrored, other origin) and another unit of length, the direction towards which the avoider converges is the same direction in the new frame, and the velocity that `evaluate` commands is the old one turned, mirrored and rescaled, with the same errors. The weight which a component takes by projection is the same number as long as the pose of the component moves with it.", "quantifier": "all dimensions n >= 2, all orthogonal maps, translations and positive scale factors, all dynamical systems with an attractor, any number of obstacle trees of any shape, all positions from which the convergence can be computed, all environments", "why_tests_cant": "All motions of all scenes and all dynamics; the convergence direction goes through chains of rotations over the reference points, averages of sequences and a reduction of a tree, all of whose base vectors depend on the frame.", "anchors": ["nonlinear_avoidance/multi_obstacle_avoider.py:290-364", "nonlinear_avoidance/multi_obstacle_avoider.py:379-566", "nonlinear_avoidance/dynamics/projected_rotation_dynamics.py:348-392", "nonlinear_avoidance/dynamics/projected_rotation_dynamics.py:583-598"]}
{"id": "C169", "title": "Removing and replacing obstacles in a RotationContainer, its intersection positions, and the free space of a container of trees", "statement": "`del container[key]` removes the obstacle and `container[key] = obstacle` replaces it, keeping the convergence dynamics of the others. `get_intersection_position` is the attractor of the dynamics for every obstacle which was there when the directions were set, and raises otherwise. `is_in_free_space` of a container of trees is true exactly where every tree is free.", "quantifier": "all containers, all keys including negative and out-of-range ones, all histories of appending, setting, removing and replacing in which exceptions are caught, all dynamics, all positions", "why_tests_cant": "All histories of calls with caught exceptions; a test removes one obstacle of one container, or none.", "anchors": ["nonlinear_avoidance/rotation_container.py:30-41", "nonlinear_avoidance/rotation_container.py:130-138", "nonlinear_avoidance/multi_obstacle_container.py:66-77"]}
{"id": "C170", "title": "Tangents, turned velocities and shares of the obstacles change continuously", "statement": "When the velocity, the normal, the reference direction and the convergence radius converge, so does the tangent returned by `get_projected_tangent_from_vectors`, unless the limit is one of the singular configurations (the velocity along the axis of the reference direction, a reference direction along the normal). When the directions of two successive references and the velocity converge, so does the velocity turned by `VectorRotationXd.from_directions(...).rotate`. When the weights converge, so do the shares of `get_limited_weights_to_max_sum`.", "quantifier": "all dimensions, all convergent sequences of inputs, all orthogonal bases, all numbers of weights", "why_tests_cant": "A limit over all sequences in an infinite set; a test compares two nearby inputs.", "anchors": ["nonlinear_avoidance/avoidance/rotational_avoider.py:778-818", "nonlinear_avoidance/vector_rotation.py:109-137", "nonlinear_avoidance/vector_rotation.py:173-180", "nonlinear_avoidance/multi_obstacle_avoider.py:57-75"]}
{"id": "C171", "title": "The avoidance direction follows the position and the wanted velocity continuously", "statement": "When the positions and the wanted velocities converge, the direction returned by `evaluate_avoidance_from_sequence`, the cluster weights and the stored normals converge to the ones of the limit, as long as the weights, convergence radii and branch walks of the obstacle trees converge, the same components keep a positive weight, the velocity stays on the same side of each surface, the limit is none of the singular configurations of the tangent, and the total of the influences of trees out of contact is not exactly one.", "quantifier": "all dimensions, all numbers of obstacle trees and components, all convergent sequences of positions and velocities, all topological orders of the direction tree", "why_tests_cant": "A limit over all sequences of states and all obstacle trees; a test compares two nearby states.", "anchors": ["nonlinear_avoidance/multi_obstacle_avoider.py:727-813", "nonlinear_avoidance/multi_obstacle_avoider.py:1059-1088", "nonlinear_avoidance/multi_obstacle_avoider.py:1393-1470", "nonlinear_avoidance/vector_rotation.py:652-790"]}
{"id": "C172", "title": "The weights of the obstacles change continuously", "statement": "When the normal, the reference direction, the wanted velocity and the relative distance converge, so does the rotation weight of `get_rotation_weight` for an obstacle whose reference direction points into it, also where the velocity turns from inwards to outwards and where the robot comes into contact. When the relative distances converge and at most one component is in contact, so do the weights of `compute_gamma_and_weights`, and with continuous occlusions the weights of all components of an obstacle tree.", "quantifier": "all dimensions, all orthogonal bases, all powers at least zero, all convergent sequences of states, all numbers of components", "why_tests_cant": "A limit over all sequences of states; a test compares two nearby states.", "anchors": ["nonlinear_avoidance/avoidance/rotational_avoider.py:928-975", "nonlinear_avoidance/multi_obstacle_avoider.py:916-965", "nonlinear_avoidance/multi_obstacle_avoider.py:752-783"]}
{"id": "C173", "title": "The commanded velocity changes continuously, in speed as well as in direction", "statement": "When the states converge to a state at which the avoidance direction is continuous, the slow-down of `slowfactor_from_convergence`, the scaling of `compute_safe_scaling` and the velocity returned by `evaluate_sequence` converge to those of the limit. This includes driving into an obstacle, where the speed dies on the way to contact, and sliding along a surface.", "quantifier": "all dimensions, all numbers of obstacles and components, all convergent sequences of states, wanted velocities, magnitudes and obstacle velocities", "why_tests_cant": "A limit over all sequences of states through the whole pipeline; a test compares two nearby states.", "anchors": ["nonlinear_avoidance/multi_obstacle_avoider.py:293-377", "nonlinear_avoidance/avoidance/rotational_avoider.py:471-496"]}
{"id": "C174", "title": "An obstacle component whose weight dies leaves the command without a jump", "statement": "When the states converge to a state at which the weights of some components become zero, so that these components leave the tree of directions, the avoidance direction, the averaged normal, the total weight and the velocity returned by `evaluate_sequence` converge to those of the limit, as long as some component keeps a positive weight. When the last weight dies the direction still converges, but the command jumps to unit speed, because `evaluate_sequence` then returns the direction without the magnitude.", "quantifier": "all dimensions, all numbers of obstacles and components, all convergent sequences of states on which the set of weighted components is constant", "why_tests_cant": "The number of vectors averaged differs between the sequence and its limit, so the claim is a limit over all sequences through two different branches of the code; a test compares two nearby states.", "anchors": ["nonlinear_avoidance/multi_obstacle_avoider.py:293-377", "nonlinear_avoidance/multi_obstacle_avoider.py:727-813", "nonlinear_avoidance/vector_rotation.py:652-790"]}
{"id": "C175", "title": "The command follows the state whatever components gain or lose weight on the way", "statement": "When the states converge, with components whose weights appear and disappear arbitrarily often along the way and at the limit, the avoidance direction, the averaged normal, the total weight and the velocity returned by `evaluate_sequence` converge to those of the limit, as long as some component has a weight at the limit.", "quantifier": "all dimensions, all numbers of obstacles and components, all convergent sequences of states with arbitrary changes of the set of weighted components", "why_tests_cant": "Infinitely many changes of the number of averaged vectors along all convergent sequences; a test compares finitely many states.", "anchors": ["nonlinear_avoidance/multi_obstacle_avoider.py:293-377", "nonlinear_avoidance/multi_obstacle_avoider.py:727-813", "nonlinear_avoidance/multi_obstacle_avoider.py:1059-1088", "nonlinear_avoidance/vector_rotation.py:652-790"]}
{"id": "C176", "title": "The command is continuous in position and velocity wherever the queries of the obstacles are", "statement": "Without repulsion, when gammas, normals, reference directions, occlusions and branches of the obstacles change continuously with the position and the state is in general position at the limit, the avoidance direction, the averaged normal, the total weight and the velocity returned by `evaluate_sequence` converge to those of the limit whenever position and initial velocity do. Nothing is asked of the weights: that they converge, which of them vanish and how often they do on the way follows from the code.", "quantifier": "all dimensions, all numbers of obstacles and components, all convergent sequences of states, all queries continuous along them", "why_tests_cant": "A limit over all convergent sequences and all continuous queries; a test compares finitely many states of a few obstacles.", "anchors": ["nonlinear_avoidance/multi_obstacle_avoider.py:293-377", "nonlinear_avoidance/multi_obstacle_avoider.py:727-813", "nonlinear_avoidance/multi_obstacle_avoider.py:1059-1088", "nonlinear_avoidance/multi_obstacle_avoider.py:1216-1391"]}
{"id": "C177", "title": "Around balls the avoidance direction and the command are continuous", "statement": "For any number of ball-shaped obstacles in any dimension, without repulsion, when position and initial velocity converge to a state off the centers, with a velocity which is neither radial nor tangential for any ball, the avoidance direction, the averaged normal and the total weight of `MultiObstacleAvoider` converge to those of the limit, and so does the velocity of `evaluate_sequence` where the slow-down does not jump. Distances, normals, reference directions and surface points are those of the balls; no continuity is assumed.", "quantifier": "all dimensions from two, all numbers, centers and radii of balls with at most one in contact, all convergent sequences of positions and velocities", "why_tests_cant": "A limit over all convergent sequences and all environments of balls; a test compares finitely many states.", "anchors": ["nonlinear_avoidance/multi_obstacle_avoider.py:293-377", "nonlinear_avoidance/multi_obstacle_avoider.py:727-813", "nonlinear_avoidance/multi_obstacle_avoider.py:1090-1130", "nonlinear_avoidance/multi_obstacle_avoider.py:1216-1478"]}
{"id": "C178", "title": "A robot does not move into the ball it touches, and a simulated run among balls never penetrates deeper than one step", "statement": "For ball-shaped obstacles in any dimension with the default convergence radius and without repulsion: where the robot is in contact with or inside a ball, off its center, the velocity of `MultiObstacleAvoider.evaluate_sequence` relative to the obstacle has no component towards the center, so that a step of any length does not reduce the distance. Consequently a run `position += dt * velocity` among static disjoint balls, started outside of all of them, with any initial velocity at each step, keeps for ever at least the radius minus the length of one step from every center.", "quantifier": "all dimensions from two, all numbers, centers and radii of disjoint balls, all step lengths below the radii, all sequences of initial velocities which are neither exactly inward nor almost sliding, all numbers of steps", "why_tests_cant": "An invariant over runs of unbounded length in all environments of balls; a simulation checks finitely many steps of finitely many runs.", "anchors": ["nonlinear_avoidance/multi_obstacle_avoider.py:293-377", "nonlinear_avoidance/multi_obstacle_avoider.py:727-813", "nonlinear_avoidance/multi_obstacle_avoider.py:1216-1391"]}
{"id": "C179", "title": "Among balls the robot never moves against the initial velocity, so a run with a fixed initial velocity has no cycles", "statement": "For ball-shaped obstacles in any dimension with the default convergence radius and without repulsion, the velocity of `MultiObstacleAvoider.evaluate_sequence` relative to the obstacles never has a component against the initial velocity, and has a positive component along it whenever it is not zero, however many balls deflect it. Consequently a run `position += dt * velocity` with a fixed initial direction among static disjoint balls advances in this direction at every step in which it moves, and never returns to a position it has left.", "quantifier": "all dimensions from two, all numbers, centers and radii of balls, all positions and initial velocities which are neither exactly inward nor almost sliding, all runs of any length", "why_tests_cant": "Absence of cycles and of backward motion in all environments of balls, over runs of unbounded length; a simulation shows finitely many steps.", "anchors": ["nonlinear_avoidance/multi_obstacle_avoider.py:293-377", "nonlinear_avoidance/multi_obstacle_avoider.py:727-813", "nonlinear_avoidance/multi_obstacle_avoider.py:1216-1391", "nonlinear_avoidance/vector_rotation.py:652-872"]}
{"id": "C180", "title": "Among balls the robot is never brought to a stop: the avoidance creates no equilibrium", "statement": "For ball-shaped obstacles in any dimension with the default convergence radius and without repulsion, at most one of them in contact, and a positive initial speed, the velocity of `MultiObstacleAvoider.evaluate_sequence` relative to the obstacles has a positive component along the initial velocity, unless that velocity points exactly at a center or is numerically equal to its sliding direction: neither the slow-down for convergence nor the safety scaling stops the robot, also in contact. A simulated run among static disjoint balls therefore advances at every step along the velocity it is asked for, and with a fixed one never visits a position twice.", "quantifier": "all dimensions from two, all numbers, centers and radii of balls, all positions, all initial velocities of positive speed as described, all runs of any length", "why_tests_cant": "Absence of equilibria over a continuum of positions, velocities and environments; a test samples finitely many.", "anchors": ["nonlinear_avoidance/multi_obstacle_avoider.py:293-377", "nonlinear_avoidance/multi_obstacle_avoider.py:727-813", "nonlinear_avoidance/multi_obstacle_avoider.py:1216-1391", "nonlinear_avoidance/vector_rotation.py:652-872"]}
{"id": "C181", "title": "Among balls a robot which heads for an attractor comes nearer to it whatever the avoidance does", "statement": "For ball-shaped obstacles in any dimension with the default convergence radius and without repulsion, at most one of them in contact, and an initial velocity of positive speed towards an attractor, the velocity of `MultiObstacleAvoider.evaluate_sequence` relative to the obstacles has a positive component towards the attractor, unless the attractor is seen exactly through a center or almost along the sliding direction: there is a positive duration such that following it for any shorter time strictly decreases the distance to the attractor. The distance to the attractor is thus a Lyapunov function of the avoidance away from the attractor.", "quantifier": "all dimensions from two, all numbers, centers and radii of balls, all positions and attractors as described, all positive speeds, all step durations below the bound", "why_tests_cant": "A descent statement over a continuum of positions, attractors and environments; a test samples finitely many.", "anchors": ["nonlinear_avoidance/multi_obstacle_avoider.py:293-377", "nonlinear_avoidance/multi_obstacle_avoider.py:727-813", "nonlinear_avoidance/multi_obstacle_avoider.py:1216-1391"]}
