{"id": "C01", "title": "Tree bookkeeping is right after any build sequence", "statement": "However a robot is assembled with AddRigidBody calls, accepted or rejected, the links are numbered 0,1,2,... in order of acceptance, every link's recorded parent is the one requested and has a smaller id (or is -1 for the base), ancestors(i) is exactly the chain base-to-i inclusive in that order, and subtree(i) lists exactly the links that have i among their ancestors, each once.", "quantifier": "every finite sequence of AddRigidBody calls with arbitrary links and arbitrary integer parent ids, and every link index of the result", "why_tests_cant": "Tests only build one serial arm; the bookkeeping is incremental (every new link edits the lists of all its ancestors), so correctness is an invariant over unboundedly many tree shapes.", "anchors": ["src/structs/articulated_body.cc:ArticulatedBody::AddRigidBody", "src/structs/articulated_body.cc:ArticulatedBody::ExpandDof", "src/structs/articulated_body.cc:ArticulatedBody::ancestors", "src/structs/articulated_body.cc:ArticulatedBody::subtree"]}
{"id": "C02", "title": "A rejected AddRigidBody / set_q / set_dq leaves the robot untouched", "statement": "AddRigidBody throws exactly when the requested parent id is below -1 or not smaller than the current number of links; set_q and set_dq throw exactly when the vector has the wrong length. A call that throws leaves every observable of the robot as it was, and a call that succeeds keeps all previous links and joint values, giving the new joint position 0 and velocity 0.", "quantifier": "every robot reachable by any history, every argument", "why_tests_cant": "Strong exception safety is a statement about every state and every argument; tests exercise neither the error paths nor the state after them.", "anchors": ["src/structs/articulated_body.cc:ArticulatedBody::AddRigidBody", "src/structs/articulated_body.cc:ArticulatedBody::set_q", "src/structs/articulated_body.cc:ArticulatedBody::set_dq"]}
{"id": "C03", "title": "Kinematic queries never return stale results", "statement": "After any history of set_q, set_dq, set_g, load changes, AddRigidBody and arbitrary earlier queries (in any order, with any links and offsets), T_to_parent, T_to_world, Position, Orientation, CartesianPose and Jacobian return exactly what the same query returns on a robot with the same observable state that has never been queried. This holds bit for bit in any arithmetic with commutative addition, IEEE doubles included (with doubles a cached Jacobian may have been computed for an offset that compares equal, such as -0 for 0). The base placement is set during construction, before the first query (see C06).", "quantifier": "every history of API calls of any length, every query, every arithmetic", "why_tests_cant": "Stale-cache bugs show up only for particular interleavings of setters and queries; there are infinitely many interleavings.", "anchors": ["src/structs/articulated_body.cc:ArticulatedBody::T_to_parent", "src/structs/articulated_body.cc:ArticulatedBody::T_to_world", "src/algorithms/forward_kinematics.cc:Jacobian", "src/structs/articulated_body.cc:ArticulatedBody::set_q", "include/spatial_dyn/structs/articulated_body_cache.h:ArticulatedBody::Cache"]}
{"id": "C04", "title": "Dynamics queries never return stale results", "statement": "After any history as in C03, CentrifugalCoriolis, Gravity, ExternalTorques, Inertia, CompositeInertia and InertiaInverse return exactly what the same query returns on a never-queried robot with the same observable state (positions, velocities, gravity, loads, links), bit for bit, in any arithmetic with commutative addition (IEEE doubles included).", "quantifier": "every history of API calls of any length, every query, every arithmetic", "why_tests_cant": "Each result depends on up to five different inputs, each with its own invalidation list; a missing invalidation is only visible for particular interleavings.", "anchors": ["src/algorithms/inverse_dynamics.cc:CentrifugalCoriolis", "src/algorithms/inverse_dynamics.cc:Gravity", "src/algorithms/inverse_dynamics.cc:ExternalTorques", "src/algorithms/inverse_dynamics.cc:Inertia", "src/algorithms/inverse_dynamics.cc:CompositeInertia", "src/structs/articulated_body.cc:ArticulatedBody::ClearDynamicsCache"]}
{"id": "C05", "title": "InverseDynamics and ForwardDynamics do not depend on what was cached", "statement": "After any history, InverseDynamics and ForwardDynamics return the value determined by the robot's observable state and the arguments alone. In particular InverseDynamics returns the same torques whether it takes the recursive path or the shortcut that reuses a cached inertia matrix, Coriolis and gravity vectors (in exact arithmetic, for proper rigid transforms and positive masses).", "quantifier": "every history, every tree, every state, every option combination, every map of external forces", "why_tests_cant": "The two code paths are textually unrelated; which one runs depends on the call history. Tests compare them on one robot with identity base and no loads.", "anchors": ["src/algorithms/inverse_dynamics.cc:InverseDynamics", "src/algorithms/forward_dynamics.cc:ForwardDynamics"]}
{"id": "C06", "title": "Defect: moving the base after a query leaves stale world quantities", "statement": "set_T_base_to_world does not invalidate anything: there are short histories (query, move base, query) after which T_to_world, Position, Jacobian and Gravity report values for the old base placement, while the explicit-q Position overload already reports the new one. For every robot, the world transform returned after such a move is the old one whenever it had been computed.", "quantifier": "every robot with at least one link and every pair of base placements (universal part); existence of differing results", "why_tests_cant": "Tests never move the base.", "anchors": ["src/structs/articulated_body.cc:ArticulatedBody::set_T_base_to_world", "include/spatial_dyn/structs/articulated_body.h:ArticulatedBody::set_T_base_to_world"]}
{"id": "C07", "title": "Forward kinematics is the product of the link transforms along the path", "statement": "The world transform of link i equals base placement times the product of the link-to-parent transforms along the chain from the base to i, and Position / Orientation computed from the stored configuration agree with the overloads that take q explicitly, when given the stored q. The explicit-q overloads leave the robot unchanged. Negative link indices count from the end; out-of-range indices are undefined behaviour.", "quantifier": "every tree, configuration, link index and offset", "why_tests_cant": "Quantifies over all trees and configurations; the two overloads traverse the tree in opposite directions.", "anchors": ["src/structs/articulated_body.cc:ArticulatedBody::T_to_world", "src/algorithms/forward_kinematics.cc:Position", "src/algorithms/forward_kinematics.cc:Orientation"]}
{"id": "C08", "title": "The two Jacobian overloads agree and have the right sparsity", "statement": "Jacobian(ab, link, offset) equals Jacobian(ab, q(), link, offset); column j is zero unless j is an ancestor of the link; LinearJacobian and AngularJacobian are its top and bottom halves, and the angular half does not depend on the offset (so AngularJacobian, which reuses whatever offset was last cached, is well defined).", "quantifier": "every tree, configuration, link and offset, every cache state", "why_tests_cant": "Quantifies over all trees and over the indeterminate initial cache contents.", "anchors": ["src/algorithms/forward_kinematics.cc:Jacobian", "src/algorithms/forward_kinematics.cc:LinearJacobian", "src/algorithms/forward_kinematics.cc:AngularJacobian"]}
{"id": "C09", "title": "The Jacobian is the derivative of forward kinematics", "statement": "For real-valued configurations the derivative of Position(link, offset) with respect to joint j is the linear part of column j of Jacobian, and the derivative of Orientation's rotation matrix is [w]x R with w the angular part of that column.", "quantifier": "every tree of joints of all types, every configuration, link, offset and joint", "why_tests_cant": "A derivative is a limit; finite differences at sample points cannot establish it, still less for all trees.", "anchors": ["src/algorithms/forward_kinematics.cc:Jacobian", "src/algorithms/forward_kinematics.cc:Position", "src/structs/joint.cc:Joint::T_joint"]}
{"id": "C10", "title": "Spatial transforms act as a group and preserve power", "statement": "Transforming a spatial motion or force by T1*T2 is transforming by T2 then T1; T.inverse() undoes T; the pairing of a motion with a force (power) is unchanged when both are transformed; transforming a spatial cross product is the cross product of the transformed vectors; the force cross product is minus the adjoint of the motion cross product; the motion cross product satisfies the Jacobi identity. A transformed motion gives the transformed point the turned velocity, a transformed force has the turned moment about the transformed point, and the pairing of a motion with a force pushing at a point is that force dotted with the velocity of that point.", "quantifier": "all motions, forces and proper rigid transforms over any field", "why_tests_cant": "Algebraic laws over all real inputs.", "anchors": ["include/spatial_dyn/eigen/spatial_motion_base.h:operator*", "include/spatial_dyn/eigen/spatial_motion_base.h:cross", "include/spatial_dyn/eigen/spatial_force_base.h:operator*", "include/spatial_dyn/eigen/spatial_motion_base.h:dot"]}
{"id": "C11", "title": "Spatial inertia arithmetic is consistent with its 6x6 matrix", "statement": "matrix() times a motion vector is operator*, the matrix is symmetric when the rotational inertia is; momentum of a transformed inertia at a transformed motion is the transformed momentum; adding two inertias adds their momenta whenever the total mass is nonzero; the transformed 6x6 matrix is the congruence by the motion transform; the flat 6-vector constructor and I_com_flat are mutually inverse on symmetric inertias.", "quantifier": "all inertias, motions and proper rigid transforms over any field", "why_tests_cant": "Algebraic laws over all inputs; tests check them at random points.", "anchors": ["include/spatial_dyn/eigen/spatial_inertia.h:SpatialInertia::operator*", "include/spatial_dyn/eigen/spatial_inertia.h:SpatialInertia::operator+", "include/spatial_dyn/eigen/spatial_inertia.h:SpatialInertia::matrix", "include/spatial_dyn/eigen/spatial_inertia.h:SpatialInertia::I_com_flat"]}
{"id": "C12", "title": "The joint-space inertia matrix is the kinetic-energy matrix", "statement": "Inertia(ab)(i,j) equals the sum over links k of (Jacobian column i of k) . (spatial inertia of k, including its load) (Jacobian column j of k), all in the world frame; hence it is symmetric, is zero for links on different branches, and half dq' A dq is the sum of the links' kinetic energies.", "quantifier": "every tree with positive link masses, every configuration, every load map", "why_tests_cant": "The composite-rigid-body recursion is never compared with the definition on branching trees; the claim quantifies over all trees.", "anchors": ["src/algorithms/inverse_dynamics.cc:Inertia", "src/algorithms/inverse_dynamics.cc:CompositeInertia"]}
{"id": "C13", "title": "The joint-space inertia matrix is positive semidefinite", "statement": "For real-valued robots with positive masses and positive semidefinite rotational inertias, x' Inertia(ab) x >= 0 for every x, and equality forces every link's kinetic energy to vanish.", "quantifier": "every tree, configuration, load map and vector x", "why_tests_cant": "An inequality over all vectors and all robots.", "anchors": ["src/algorithms/inverse_dynamics.cc:Inertia"]}
{"id": "C14", "title": "Inverse dynamics = A*ddq + C + G + external torques + friction", "statement": "For every option combination, InverseDynamics(ab, ddq, f_external, options) equals Inertia*ddq, plus CentrifugalCoriolis if requested, plus Gravity if requested, plus ExternalTorques, plus the friction torque evaluated at that sum if requested.", "quantifier": "every tree, configuration, velocity, acceleration, load map, gravity, external force map and option set", "why_tests_cant": "Equality of two independent recursions over all trees; the unit test samples one arm with no loads and no branches.", "anchors": ["src/algorithms/inverse_dynamics.cc:InverseDynamics", "src/algorithms/inverse_dynamics.cc:CentrifugalCoriolis", "src/algorithms/inverse_dynamics.cc:Gravity", "src/algorithms/inverse_dynamics.cc:ExternalTorques", "src/algorithms/inverse_dynamics.cc:Inertia"]}
{"id": "C15", "title": "Gravity torque is minus the weight of every link seen through its Jacobian", "statement": "Gravity(ab)(i) equals minus the sum over links k below joint i of the gravity wrench on k (mass times g applied at its centre of mass, loads included) paired with joint i's world axis; over the reals it is the partial derivative of the gravitational potential energy with respect to q_i.", "quantifier": "every tree, configuration, gravity vector and load map", "why_tests_cant": "Sum over unboundedly many links, and a derivative.", "anchors": ["src/algorithms/inverse_dynamics.cc:Gravity"]}
{"id": "C16", "title": "External forces enter as -J' f", "statement": "ExternalTorques(ab, f_ext)(i) is minus the sum, over links k below joint i that have an entry in f_ext, of the world-frame wrench f_ext[k] paired with joint i's world axis; entries for links outside the robot are ignored.", "quantifier": "every tree, configuration and external force map", "why_tests_cant": "Quantifies over all maps and trees; tests use a single force on the last link.", "anchors": ["src/algorithms/inverse_dynamics.cc:ExternalTorques"]}
{"id": "C17", "title": "ForwardDynamics and InverseDynamics are inverse to each other", "statement": "Without friction, ForwardDynamics(InverseDynamics(ddq)) = ddq and InverseDynamics(ForwardDynamics(tau)) = tau, for matching gravity / Coriolis options and the same external forces, whenever the linear solve returns a solution (and the inertia matrix is injective for the first).", "quantifier": "every tree, state, tau, ddq, external forces, options", "why_tests_cant": "Functional inverse over all inputs.", "anchors": ["src/algorithms/forward_dynamics.cc:ForwardDynamics", "src/algorithms/inverse_dynamics.cc:InverseDynamics"]}
{"id": "C18", "title": "The articulated-body algorithm solves the same equations of motion", "statement": "Without friction and with a base that is not rotated relative to the world (or without gravity), the accelerations returned by ForwardDynamicsAba, fed to InverseDynamics with the same options and external forces, reproduce the input torques, provided no articulated joint inertia is zero; when all links are solid (positive definite inertia) that is so.", "quantifier": "every tree (branches and several roots included), state, torque, load map, external force map; warm or cold cache", "why_tests_cant": "Correctness of an O(n) recursion for all trees; the test uses one serial arm.", "anchors": ["src/algorithms/forward_dynamics.cc:ForwardDynamicsAba"]}
{"id": "C19", "title": "InertiaInverseAba inverts the inertia matrix of serial chains", "statement": "For a robot whose links form a single chain, Inertia(ab) * InertiaInverseAba(ab) is the identity, provided no articulated joint inertia is zero, as is the case when all links are solid.", "quantifier": "every serial chain of any length, configuration, load map", "why_tests_cant": "Matrix inverse property for all n.", "anchors": ["src/algorithms/forward_dynamics.cc:InertiaInverseAba"]}
{"id": "C20", "title": "Defect: InertiaInverseAba returns uninitialised entries for branching robots", "statement": "For a robot with two links neither of which is an ancestor of the other, InertiaInverseAba never writes the corresponding matrix entries: the returned entry is whatever the cache memory contained.", "quantifier": "every robot with two unrelated links, every initial memory content", "why_tests_cant": "Tests have no branching robot; reading indeterminate memory can pass any test by luck.", "anchors": ["src/algorithms/forward_dynamics.cc:InertiaInverseAba"]}
{"id": "C21", "title": "Defect: ForwardDynamicsAba applies gravity in the wrong frame when the base is rotated", "statement": "For roots, ForwardDynamicsAba rotates gravity by the root link's transform to the base only, ignoring the base's placement in the world; with a rotated base it returns accelerations that do not satisfy the equations of motion reported by InverseDynamics.", "quantifier": "existence of a robot, plus the universal statement that the result equals the correct one for gravity expressed in the base frame", "why_tests_cant": "Tests keep the base at identity.", "anchors": ["src/algorithms/forward_dynamics.cc:ForwardDynamicsAba"]}
{"id": "C22", "title": "Defect: GravityAba depends on the call history", "statement": "opspace::GravityAba reads the shared articulated-inertia cache: calling it twice in a row on an unchanged robot can return two different forces.", "quantifier": "existence of a history", "why_tests_cant": "The test calls it once per configuration, always with a cold cache.", "anchors": ["src/algorithms/opspace_dynamics_aba.cc:GravityAba"]}
{"id": "C23", "title": "Coriolis forces do no spurious work (Newton-Euler consistency)", "statement": "The torques of InverseDynamics are the torques that realise Newton-Euler motion: paired with the joint velocities, ddq'A dq + C.dq is the rate of change of the kinetic energy along any motion, so without gravity and external forces a robot driven by zero torque conserves kinetic energy.", "quantifier": "every tree and every twice differentiable motion", "why_tests_cant": "A statement about all trajectories of all robots.", "anchors": ["src/algorithms/inverse_dynamics.cc:InverseDynamics", "src/algorithms/inverse_dynamics.cc:CentrifugalCoriolis"]}
{"id": "C24", "title": "Friction torques oppose and never overshoot", "statement": "Joint friction is viscous*dq plus a Coulomb term of the sign of dq outside the stiction band of a joint with Coulomb friction, and its power viscous*dq^2 + coulomb*|dq| is then never negative; inside the band, when not compensating, its static part is min(coulomb+stiction, |tau|) in the direction of the applied torque, so static friction can bring the net torque to zero but not past it. A joint with stiction but without Coulomb friction is treated as inside the band at every velocity, so friction then pushes along the motion whenever the torque brakes it (defect). A torque vector shorter than dof is read out of bounds.", "quantifier": "all joints, torques, velocities and bands over the reals", "why_tests_cant": "Inequalities over all inputs, with case splits on signs and thresholds.", "anchors": ["src/algorithms/inverse_dynamics.cc:Friction"]}
{"id": "C25", "title": "Joint limits and coefficients stay consistent", "statement": "After any sequence of Joint setter calls, including rejected ones, q_min <= q_max and dq_max, fq_max, f_coulomb, f_viscous, f_stiction are non-negative; a setter that throws leaves the joint unchanged; the motion subspace always matches the joint type and is a unit motion (zero for undefined).", "quantifier": "every sequence of setter calls with non-NaN arguments; NaN arguments are shown to break it", "why_tests_cant": "Invariant over all histories.", "anchors": ["src/structs/joint.cc:Joint::set_q_min", "src/structs/joint.cc:Joint::set_q_max", "src/structs/joint.cc:Joint::set_q_limits", "src/structs/joint.cc:Joint::set_dq_max", "src/structs/joint.cc:Joint::set_type"]}
{"id": "C26", "title": "Joint transforms are proper rigid motions generated by the subspace", "statement": "T_joint(q) is a proper rigid transform for every joint type and q, T_joint(0) is the identity, and the joint's own axis is fixed by T_joint(q); hence T_to_parent and T_to_world are proper rigid transforms whenever the fixed transforms are.", "quantifier": "all joint types and q, all trees", "why_tests_cant": "Universal over q and trees.", "anchors": ["src/structs/joint.cc:Joint::T_joint", "src/structs/articulated_body.cc:ArticulatedBody::T_to_parent"]}
{"id": "C27", "title": "Type names round-trip and parse case-insensitively", "statement": "Printing a joint type or geometry type and parsing the text gives the type back; parsing ignores letter case; every other token is rejected with an exception.", "quantifier": "all types, all strings", "why_tests_cant": "All strings.", "anchors": ["src/structs/joint.cc:operator>>", "src/structs/graphics.cc:operator>>"]}
{"id": "C28", "title": "Integrate keeps joints inside their limits when asked to", "statement": "With joint_limits on, after Integrate every joint position is within [q_min, q_max], and a joint sitting at a limit has no velocity component pushing further out; with limits off, Euler, Heun and RK4 compute the textbook formulas and are exact for constant acceleration.", "quantifier": "every robot, state, torque, dt, method; any forward-dynamics function", "why_tests_cant": "All states and all dynamics.", "anchors": ["src/algorithms/simulation.cc:Integrate", "src/algorithms/simulation.cc:ClipQ", "src/algorithms/simulation.cc:ClipDq"]}
{"id": "C29", "title": "A load is equivalent to a heavier link", "statement": "AddLoad accumulates, ReplaceLoad overwrites, ClearLoad removes; the inertia matrix, Coriolis, gravity, inverse and forward dynamics of a robot with loads equal those of the robot without loads whose links' inertias already include them. Loads stored under an index that is not a link have no effect.", "quantifier": "every robot, load history and state", "why_tests_cant": "All load histories.", "anchors": ["src/structs/articulated_body.cc:ArticulatedBody::AddLoad", "src/structs/articulated_body.cc:ArticulatedBody::ReplaceLoad", "src/structs/articulated_body.cc:ArticulatedBody::ClearLoad"]}
{"id": "C30", "title": "Copies behave like the original (except for the base inertia, a defect)", "statement": "A copied or assigned robot has the same observable state except inertia_base, answers every query like the original, and later changes to one do not affect the other. inertia_base is not carried over: a copy or a moved-to robot gets the default, an assigned one keeps its own. A moved-from robot has no cache and empty vectors but keeps its dof: set_g is safe on it, set_q and set_dq throw on a wrong length and compare vectors of different sizes on the right one; AddLoad, ReplaceLoad, ClearLoad and copying it are undefined behaviour, and no query on it returns a value.", "quantifier": "every reachable robot, every later history", "why_tests_cant": "All histories before and after the copy.", "anchors": ["src/structs/articulated_body.cc:ArticulatedBody::ArticulatedBody(const ArticulatedBody&)", "src/structs/articulated_body.cc:ArticulatedBody::operator=", "src/structs/articulated_body.cc:ArticulatedBody::ArticulatedBody(ArticulatedBody&&)"]}
{"id": "C31", "title": "Defect: T_to_world(i, q) and CartesianPose(ab, q, ...) read an uninitialised transform", "statement": "For every robot and every valid link index the explicit-q overload of T_to_world multiplies into a transform that was never initialised, so it (and T_from_world(i,q), CartesianPose(ab,q,link,offset)) has undefined behaviour on every call.", "quantifier": "every robot, valid index and q", "why_tests_cant": "Indeterminate values can look right in a test.", "anchors": ["src/structs/articulated_body.cc:ArticulatedBody::T_to_world", "src/algorithms/forward_kinematics.cc:CartesianPose"]}
{"id": "C32", "title": "JSON serialisation round-trips the robot description", "statement": "Encoding a robot to a JSON value and decoding it into a fresh robot gives the same name, base placement, base inertia, graphics and links (ids, parents, transforms, inertias, joints) for every robot whose rotational inertias are symmetric; graphics geometry keeps the fields relevant to its type. Positions, velocities, gravity and loads are not serialised. Once dumped to text, infinite limits become null and decoding throws, so pickling a robot with default limits fails to load; a robot that does load has lost its base inertia (it is moved into the Python object, and moving replaces the base inertia by a 1 kg point mass).", "quantifier": "every robot reachable through the API", "why_tests_cant": "All robots.", "anchors": ["src/parsers/json.cc:to_json", "src/parsers/json.cc:from_json", "src/python/spatial_dyn.cc:py::pickle"]}
{"id": "C33", "title": "Defect: YAML decoding loses the tree structure", "statement": "Encoding a robot as YAML and decoding it attaches every link directly to the base: all parents are -1 after the round trip, so any robot with a non-root link changes.", "quantifier": "every robot", "why_tests_cant": "Tests do not cover YAML.", "anchors": ["src/parsers/yaml.cc:convert<spatial_dyn::RigidBody>::decode"]}
{"id": "C34", "title": "URDF loading orders parents first and merging fixed joints preserves the mechanism", "statement": "The depth-first ordering lists exactly the links reachable from the root, each once, parents before children; merging fixed joints keeps the world pose of every remaining link for every configuration and preserves total mass and momentum of every rigid group; AddRigidBody never rejects a link during loading.", "quantifier": "every list of links and joints with distinct names", "why_tests_cant": "All URDF trees.", "anchors": ["src/parsers/urdf.cc:LoadModel", "src/parsers/urdf.cc:AddChildrenDfs", "src/parsers/urdf.cc:AddRigidBody"]}
{"id": "C35", "title": "Defect: URDF axes and inertial frames are mis-read", "statement": "A joint axis with a negative sign (for example 0 0 -1) is silently read as +X, oblique axes are snapped; the inertial frame's rotation is applied as R'IR instead of RIR', which differs for general rotations; a joint without <child> and a document without root link are undefined behaviour.", "quantifier": "existence of inputs; universal characterisation of which axis is chosen", "why_tests_cant": "Tests load no URDF with such axes.", "anchors": ["src/parsers/urdf.cc:LoadModel", "src/parsers/urdf.cc:ParseRigidBody"]}
{"id": "C36", "title": "Operational-space quantities satisfy their defining equations", "statement": "With a pseudo-inverse that is exact on invertible matrices: Lambda is the inverse of J A^-1 J', the dynamically consistent inverse satisfies J Jbar = I, N = I - Jbar J is a projection with J N = 0, and the joint torques J'F returned for a task produce the commanded task acceleration and leave tasks in the nullspace unaffected.", "quantifier": "every robot, every full-rank task Jacobian of any height", "why_tests_cant": "Matrix identities for all sizes.", "anchors": ["src/algorithms/opspace_dynamics.cc:Inertia", "src/algorithms/opspace_dynamics.cc:InertiaInverse", "src/algorithms/opspace_dynamics.cc:JacobianDynamicInverse", "src/algorithms/opspace_dynamics.cc:InverseDynamics"]}
{"id": "C37", "title": "Defect: the dynamically consistent inverse goes stale when the SVD threshold changes", "statement": "After JacobianDynamicInverse(J, e1) and Inertia(J, e2), JacobianDynamicInverse(J, e2) returns the matrix for e1. InertiaInverse, Inertia and IsSingular are never stale; the functions that use Jbar are not stale in histories where every threshold passed is the same.", "quantifier": "every robot and Jacobian (universal characterisation)", "why_tests_cant": "Needs a specific three-call interleaving.", "anchors": ["src/algorithms/opspace_dynamics.cc:JacobianDynamicInverse", "src/algorithms/opspace_dynamics.cc:Inertia", "include/spatial_dyn/structs/articulated_body_cache.h"]}
{"id": "C38", "title": "Defect: operational-space InverseDynamics passes its SVD threshold as a link index, Friction passes its stiction threshold as a flag", "statement": "opspace::InverseDynamics evaluates Coriolis forces with link index trunc(svd_epsilon) (so link 0 for the usual thresholds) instead of the end effector, and with the default threshold; opspace::Friction ignores the stiction threshold it is given: any nonzero value is read as 'compensate' and the default band is used.", "quantifier": "all inputs (universal characterisation) and existence of differing results", "why_tests_cant": "Arguments convert silently; tests only run the zero-threshold single arm.", "anchors": ["src/algorithms/opspace_dynamics.cc:InverseDynamics", "src/algorithms/opspace_dynamics.cc:Friction", "src/algorithms/opspace_dynamics.cc:CentrifugalCoriolis"]}
{"id": "C39", "title": "Task force clipping respects the bound and keeps the direction", "statement": "When f_acc_max is positive, the acceleration force used by opspace::InverseDynamics has Euclidean norm at most f_acc_max, is a positive multiple of the unclipped force, and is unchanged if already within the bound.", "quantifier": "all forces and bounds over the reals", "why_tests_cant": "Inequality over all vectors.", "anchors": ["src/algorithms/opspace_dynamics.cc:InverseDynamics"]}
{"id": "C40", "title": "VelocityDerivative is the exact velocity Jacobian of inverse dynamics", "statement": "With friction off, VelocityDerivative D satisfies InverseDynamics at dq + x = InverseDynamics at dq + D x + CentrifugalCoriolis at x, for every x; so column j is the coefficient of t in InverseDynamics(dq + t e_j) and the remainder is t^2 times a term independent of t.", "quantifier": "every tree, state, joint", "why_tests_cant": "Tests use finite differences on one arm.", "anchors": ["src/algorithms/dynamics_derivatives.cc:VelocityDerivative"]}
{"id": "C41", "title": "Defect: PositionDerivative adds a 6 x n block to a single column", "statement": "For every robot with at least one non-root link, PositionDerivative adds a 6 x n matrix to a 6-vector: an assertion failure in debug builds, undefined in release builds. For robots whose links are all attached to the base it is the exact derivative of InverseDynamics with respect to the joint positions (friction off).", "quantifier": "every such robot and state", "why_tests_cant": "In the test the offending column happens to be zero because the first axis is parallel to gravity.", "anchors": ["src/algorithms/dynamics_derivatives.cc:PositionDerivative"]}
{"id": "C42", "title": "Hessian is the derivative of the linear Jacobian", "statement": "The linear part of Hessian(i,j) is the derivative with respect to q_i of the linear part of Jacobian column j, hence symmetric in i and j; the angular part is the derivative of the angular Jacobian only for i <= j along the chain (it is symmetrised although the true derivative is not: a defect).", "quantifier": "every tree, configuration, link, offset and pair of joints", "why_tests_cant": "Second derivative for all trees.", "anchors": ["src/algorithms/forward_kinematics.cc:Hessian"]}
{"id": "C43", "title": "Zero-mass bodies poison sums with NaN", "statement": "Adding two spatial inertias of mass zero divides zero by zero: in IEEE arithmetic every component of the resulting centre of mass and rotational inertia is NaN. So a massless link with a child, whose whole subtree is massless, has a NaN diagonal entry in the inertia matrix, and so do its ancestors, although set_inertia accepts mass 0. A robot with an undefined (fixed) joint has a zero row and column in the inertia matrix, and ForwardDynamicsAba returns NaN for every link of the tree that joint is in.", "quantifier": "all inertias with zero masses in IEEE double arithmetic; all robots with an undefined joint", "why_tests_cant": "Corner of the input space not sampled by tests.", "anchors": ["include/spatial_dyn/eigen/spatial_inertia.h:SpatialInertia::operator+", "src/structs/rigid_body.cc:RigidBody::set_inertia", "src/algorithms/forward_dynamics.cc:ForwardDynamicsAba"]}
{"id": "C44", "title": "The Python task controller: torques, status bits, state", "statement": "ComputeOpspaceControl never fails on a robot with at least one link; its torques are those of the main task plus those of the joint task run in its nullspace plus gravity if asked, each as the library answers on the robot as it was, whatever is cached; under those torques the commanded task acceleration (six components, or the three linear ones when the six rows are singular) is realised exactly whatever the joint task asks for, wherever the task inertia is invertible; the status word has exactly the bits 0-5, each set exactly when the documented test holds, where IsConverged holds exactly when the threshold is negative or the norm of the error is below it; the robot is left unchanged unless dt > 0, then it is integrated with those torques. Defects: the boolean documented by opspace_control is true for every robot at rest however far from the goal, and leaving a threshold at its default None always raises.", "quantifier": "all robots, call histories with one pseudo-inverse threshold, gains and goals (any PD functions), Jacobian rotations, thresholds; exact arithmetic for the acceleration", "why_tests_cant": "The controller is only ever run in interactive scripts; claims quantify over every configuration, history and PD law.", "anchors": ["src/python/spatial_dyn.cc:IsConverged", "src/python/spatial_dyn.cc:ComputeOpspaceControl", "spatialdyn/opspace_control.py:opspace_control"]}
{"id": "C45", "title": "Defect: the operational-space articulated-body queries ignore loads and poison the shared cache", "statement": "opspace::InertiaInverseAba, InertiaAba, CentrifugalCoriolisAba and GravityAba return the same answer whatever load is attached; worse, they store articulated inertias computed without loads in the cache that ForwardDynamicsAba reads, so that ForwardDynamicsAba called after one of them on a loaded robot returns accelerations different from those it returns when called first.", "quantifier": "every robot, load and query for the first part; existence of a history for the second", "why_tests_cant": "The order of two queries on an unchanged loaded robot; tests attach no loads.", "anchors": ["src/algorithms/opspace_dynamics_aba.cc:InertiaInverseAba", "src/algorithms/forward_dynamics.cc:ForwardDynamicsAba"]}
{"id": "C46", "title": "Defect: further silent mis-readings of URDF documents", "statement": "A link with the empty name below the root makes loading recurse without end; a <material> placed inside <visual>, where URDF has it, is ignored; a link without <inertial> is given a mass of 1 kg; links below a second root are dropped without notice; joints of unknown type are ignored; without simplification a fixed joint becomes a degree of freedom without motion; a model loaded from Python loses the inertia of its base.", "quantifier": "every document of the described kind", "why_tests_cant": "Tests load no such documents, and nothing is reported when it happens.", "anchors": ["src/parsers/urdf.cc:LoadModel", "src/parsers/urdf.cc:ParseGraphics", "src/parsers/urdf.cc:AddChildrenDfs", "src/python/spatial_dyn.cc:load_model"]}
{"id": "C47", "title": "discrete::InverseDynamics: what the impulses are, and that they are never stale", "statement": "After any history without discrete integration, discrete::InverseDynamics returns what a never-queried robot with the same observable state returns (for any step other than zero, in doubles). Its value for joint j is the change of the discrete momentum: the derivative in the direction of joint j of the kinetic energy of every link over the step to q_next, minus that over the step from q - dt dq, minus dt times the power of the external forces, plus dt times Gravity if asked, where velocities are logarithms of relative poses divided by dt.", "quantifier": "every history, tree, state, q_next, step and map of external forces; every logarithm and derivative of it", "why_tests_cant": "The recursion over relative transforms with per-step caches is compared with nothing in the tests.", "anchors": ["src/algorithms/discrete_dynamics.cc:InverseDynamics"]}
{"id": "C48", "title": "discrete::Integrate is a two-step variational recurrence with memory", "statement": "Over any number of converged steps of one length, with arbitrary other queries in between, every new configuration balances the commanded torques to within the tolerance, measured by the impulses of a never-queried robot that came from the configuration before (the stored momentum is exact); the stored velocity is the central difference of the new and the last-but-one configuration.", "quantifier": "every robot, history without discrete integration, sequence of steps, torques, forces, tolerances and iteration limits for which the iterations converge", "why_tests_cant": "An invariant over unboundedly many steps relating hidden cached momenta to configurations.", "anchors": ["src/algorithms/discrete_dynamics.cc:Integrate", "src/algorithms/discrete_dynamics.cc:InverseDynamics"]}
{"id": "C49", "title": "discrete::InverseDynamics: reversal, rest, agreement with InverseDynamics", "statement": "Impulses do not change under time reversal (coming with velocity a and leaving with b costs what coming with -b and leaving with -a costs) if the logarithm is odd; at rest they are dt times (external torques plus Gravity), and a robot at rest under balancing torques stays exactly where it is under discrete::Integrate; for robots of sliding joints without loads they are dt times the torques of InverseDynamics for the acceleration the step needs, and there discrete::Integrate converges within two iterations, over any number of steps.", "quantifier": "every tree, state, step and map of forces; every logarithm with the stated property", "why_tests_cant": "Symmetry and equivalence statements over all robots and states.", "anchors": ["src/algorithms/discrete_dynamics.cc:InverseDynamics", "src/algorithms/discrete_dynamics.cc:Integrate", "src/algorithms/inverse_dynamics.cc:InverseDynamics"]}
{"id": "C50", "title": "Defects: discrete dynamics ignores loads, hides state, and is upset by queries", "statement": "Without gravity the impulses do not depend on loads, so a loaded robot of sliding joints does not get the torques of InverseDynamics; after one converged step a robot answers differently from one in the same state that has made none, and one query with another step length makes it forget this, so queries change later answers; a step that runs out of iterations reports nothing and leaves a momentum that belongs to no configuration; with an iteration limit of 0 the stored velocity is read from uninitialised memory; the stored velocity lags half a step behind.", "quantifier": "every robot for the load independence and the forgetting; existence for the others", "why_tests_cant": "Each needs a particular interleaving of calls; nothing is reported when it happens.", "anchors": ["src/algorithms/discrete_dynamics.cc:InverseDynamics", "src/algorithms/discrete_dynamics.cc:Integrate"]}
{"id": "C51", "title": "InverseKinematics: what the returned joint vector is, and its defects", "statement": "InverseKinematics returns, for any valid link, on a copy of the robot, the joint vector reached after n steps of a controlled motion from the current state; either n < 10000 and setting the vector puts the point of the link within a millimetre of the goal position and the orientation of the last link within a thousandth of the goal orientation, or n = 10000. A robot on its goal is left where it is; the result does not depend on what was cached. Defects: a goal that no configuration meets still gets a vector and nothing is reported; the orientation is that of the last link, whichever link is named; once the function has moved one robot, it never returns normally for a robot with another number of joints that is not already on its goal.", "quantifier": "every robot, history, state, goal, link, offset and PD law; any solver and pseudo-inverse", "why_tests_cant": "Ten thousand iterations of a loop over cached state; the defects need an unreachable goal, an inner link, or two robots in one process.", "anchors": ["src/algorithms/inverse_kinematics.cc:InverseKinematics"]}
{"id": "C52", "title": "joint_space_control: torques, convergence, and the motion it integrates", "statement": "joint_space_control returns the inertia matrix times the acceleration of the PD law, plus Gravity when compensated, whatever was cached; converged is true exactly when no threshold is given or both Euclidean norms are strictly below their thresholds; it never fails when the PD law returns one acceleration per joint. Without velocity-dependent forces these torques produce the acceleration of the PD law; the motion it integrates misses it by the centrifugal and Coriolis forces, and by gravity when that is not compensated. Defect: the robot is moved for steps that are zero or negative, which the documentation excludes.", "quantifier": "every robot, history, state, PD law, threshold and step; exact arithmetic for the torques, any for totality", "why_tests_cant": "Relates a controller to the dynamics of every robot in every state.", "anchors": ["spatialdyn/joint_space_control.py:joint_space_control"]}
{"id": "C53", "title": "MATLAB functions over several configurations", "statement": "Called with a matrix Q of dof rows (and dQ, ddQ of the same shape where they take them), spatialdyn.gravity, inertia, hessian, centrifugal_coriolis, inverse_dynamics, inverse_dynamics_velocity_derivative, jacobian_dynamic_inverse, position, jacobian and discrete_inverse_dynamics return an array whose trailing dimensions are those of Q (two columns fewer for the last) and whose block i is what the C++ function answers for a robot that was never used before and stands in column i, whatever the robot was asked before and whichever columns come earlier. position and jacobian honour the last 'link' and 'offset' given and leave the robot where it is; the others leave it in the last column. Without Q they answer for the stored state; a Q with another number of rows gives no output and changes nothing.", "quantifier": "every robot, history, matrix Q, dQ, ddQ of any width and number of dimensions, and list of named arguments", "why_tests_cant": "The loop moves one robot with shared caches through arbitrarily many columns; a stale column shows only for particular histories and column sequences.", "anchors": ["src/matlab/gravity.cc:MexFunction", "src/matlab/inertia.cc:MexFunction", "src/matlab/hessian.cc:MexFunction", "src/matlab/centrifugal_coriolis.cc:MexFunction", "src/matlab/inverse_dynamics.cc:MexFunction", "src/matlab/inverse_dynamics_velocity_derivative.cc:MexFunction", "src/matlab/jacobian_dynamic_inverse.cc:MexFunction", "src/matlab/position.cc:MexFunction", "src/matlab/jacobian.cc:MexFunction", "src/matlab/discrete_inverse_dynamics.cc:MexFunction"]}
{"id": "C54", "title": "Defects: MATLAB functions", "statement": "inverse_kinematics reads past the end of every 3 x 1 position, needs the guess it does not ask for, and ignores the orientation it is given; centrifugal_coriolis returns nothing for the stored state and reads past the end of a dQ with fewer columns than Q; jacobian_dynamic_inverse ignores 'link' and 'offset', and for the stored state is undefined unless the robot has six joints; inverse_dynamics_position_derivative is undefined for every robot in which a link has a parent.", "quantifier": "every robot and arguments of the stated shapes", "why_tests_cant": "Undefined behaviour need not show in any run; the others are statements about all arguments.", "anchors": ["src/matlab/inverse_kinematics.cc:MexFunction", "src/matlab/centrifugal_coriolis.cc:MexFunction", "src/matlab/jacobian_dynamic_inverse.cc:MexFunction", "src/matlab/inverse_dynamics_position_derivative.cc:MexFunction"]}
{"id": "C55", "title": "Links edited in place from Python", "statement": "ab.rigid_bodies[i] is the robot's own link: assigning to its frame, inertia, mass, joint or type changes the robot. If links are edited and the base moved only before the first query, every kinematic and dynamic answer is that of a fresh robot with the same description; after any program at all, setting q to a different value makes it so again. Nothing else does: an answer once given (T_to_parent, T_to_world, inertia, composite inertia, its inverses, gravity, centrifugal/Coriolis) is repeated after any edits, base moves, other queries and settings of q and dq to their present values, so inverse_dynamics can depend on which queries preceded the edit. A negative mass is refused when an inertia is assigned and accepted when its mass is. A pickled inertia comes back iff its matrix is symmetric.", "quantifier": "every Python program mixing edits, mutators and queries; every robot", "why_tests_cant": "Staleness depends on the order of arbitrarily long call sequences; no finite set of programs covers it.", "anchors": ["src/python/spatial_dyn.cc:rigid_bodies", "src/python/spatial_dyn.cc:RigidBody", "src/python/spatial_dyn.cc:SpatialInertiad", "src/structs/articulated_body.cc:set_q"]}
{"id": "C56", "title": "InverseDynamics and ForwardDynamics with default options", "statement": "InverseDynamicsOptions() leaves out centrifugal/Coriolis forces and ForwardDynamicsOptions() includes them. With defaults, ForwardDynamics of the torques InverseDynamics returns for ddq is a ddq' with A ddq = A ddq' + C, and InverseDynamics of the acceleration caused by tau is tau - C; so they are inverse at rest and not in motion. Passing the forward options to InverseDynamics makes them inverse.", "quantifier": "every robot, history, state, external forces, accelerations and torques; exact arithmetic", "why_tests_cant": "An equation between two functions over all robots and states.", "anchors": ["include/spatial_dyn/structs/options.h:InverseDynamicsOptions", "include/spatial_dyn/structs/options.h:ForwardDynamicsOptions", "src/structs/options.cc:InverseDynamicsOptions", "src/algorithms/inverse_dynamics.cc:InverseDynamics", "src/algorithms/forward_dynamics.cc:ForwardDynamics"]}
{"id": "C57", "title": "References returned by queries", "statement": "A query that returns a reference (poses, Jacobian and its halves, inertia, its inverses, gravity, centrifugal/Coriolis, Lambda, J_bar) returns one that shows its answer, and goes on showing it over any other queries except those sharing its storage: Jacobian, LinearJacobian, AngularJacobian and Hessian of any link or point overwrite one another, as do the operational-space functions of any task, and those of the articulated-body family. After the robot is changed the reference shows the outdated answer until a query recomputes it.", "quantifier": "every robot, every query returning a reference, every sequence of later queries and setters", "why_tests_cant": "Aliasing of results shows only for particular later calls; the guarantee is over all sequences.", "anchors": ["include/spatial_dyn/algorithms/forward_kinematics.h:Jacobian", "include/spatial_dyn/algorithms/inverse_dynamics.h:Inertia", "include/spatial_dyn/algorithms/opspace_dynamics.h:Inertia", "include/spatial_dyn/structs/articulated_body.h:T_to_world"]}
{"id": "C58", "title": "A robot at rest stays at rest", "statement": "When the robot is at rest and the torques balance gravity (if simulated) and the external forces, Integrate leaves q and dq exactly as they are, for every method, time step and number of steps, with or without clipping when q is within its limits. With friction simulated it does so whenever what is missing from balance is at most the Coulomb friction plus the stiction of each joint. opspace_control and joint_space_control called any number of times, at rest at their goal with gravity compensation, always return the gravity torques and leave the robot they integrate exactly where it is.", "quantifier": "every robot, state at rest, external forces, method, sequence of time steps, and number of controller calls; exact arithmetic", "why_tests_cant": "A statement about arbitrarily long simulations from every state; a test sees one robot for some steps, with rounding.", "anchors": ["src/algorithms/simulation.cc:Integrate", "src/algorithms/inverse_dynamics.cc:Friction", "src/python/spatial_dyn.cc:ComputeOpspaceControl", "spatialdyn/opspace_control.py:opspace_control", "spatialdyn/joint_space_control.py:joint_space_control"]}
{"id": "C59", "title": "The operational-space articulated-body functions agree with the matrix ones", "statement": "For a robot without loads, opspace::InertiaInverseAba(ab, link, offset) equals opspace::InertiaInverse(ab, J) where J is the Jacobian of the link's origin, and likewise InertiaAba and (where the threshold does not change the pseudo-inverse) CentrifugalCoriolisAba. The offset argument is ignored: the values are not those of the Jacobian at the offset point. GravityAba with empty caches equals opspace::Gravity minus opspace::ExternalForces: external forces enter with the opposite sign to the one they have in the equations of motion.", "quantifier": "every robot without loads and with no zero articulated joint inertia, every state, link, offset, threshold and set of external forces, whatever was computed before (except for GravityAba, see C22); exact arithmetic", "why_tests_cant": "The tests compare the two families at one configuration of one robot, with zero offset and no external forces; agreement of two recursions is a statement about all trees, states and histories.", "anchors": ["src/algorithms/opspace_dynamics_aba.cc:InertiaInverseAba", "src/algorithms/opspace_dynamics_aba.cc:InertiaAba", "src/algorithms/opspace_dynamics_aba.cc:CentrifugalCoriolisAba", "src/algorithms/opspace_dynamics_aba.cc:GravityAba"]}
{"id": "C60", "title": "Friction in the dynamics", "statement": "ForwardDynamics with friction is ForwardDynamics without it on the torques less Friction(tau - bias), bias being the torques of InverseDynamics at zero acceleration. While every joint slips (its speed exceeds the stiction threshold, or it has neither Coulomb friction nor stiction), ForwardDynamics, ForwardDynamicsAba and InverseDynamics, all with friction, invert each other. A robot at rest whose torques miss the balancing ones by at most Coulomb friction plus stiction of each joint gets zero acceleration. Along the motions forward dynamics with friction produces while slipping, the energy changes at the rate of the power of the torques and external forces less sum(viscous dq^2 + coulomb |dq|), so without them it never rises. Slower than the threshold the inverses fail: InverseDynamics of the acceleration ForwardDynamics returns is not the torque, and ForwardDynamicsAba, whose friction ignores gravity, disagrees with ForwardDynamics.", "quantifier": "every robot, history, state, torques, external forces and motion; friction coefficients zero or positive", "why_tests_cant": "Equations over all robots and states, and over all motions for the energy.", "anchors": ["src/algorithms/forward_dynamics.cc:ForwardDynamics", "src/algorithms/forward_dynamics.cc:ForwardDynamicsAba", "src/algorithms/inverse_dynamics.cc:Friction", "src/algorithms/inverse_dynamics.cc:InverseDynamics"]}
{"id": "C61", "title": "The same machine described differently", "statement": "Answers do not depend on the order in which links were added, on where the world frame is (base and gravity moved together by a rigid motion X), on the unit of mass, or on the unit or direction of time. For two robots that differ only so (links renumbered by s, masses and loads multiplied by c, velocities by w and gravity by w*w, external forces moved by X and multiplied by c*w*w): poses and points are moved by X, Jacobian columns are renumbered and turned by X, Inertia is renumbered and multiplied by c, CentrifugalCoriolis, Gravity, ExternalTorques and InverseDynamics (of accelerations multiplied by w*w) are renumbered and multiplied by c*w*w, and ForwardDynamics and ForwardDynamicsAba (of torques multiplied by c*w*w) are renumbered and multiplied by w*w. With w = -1, the accelerations of a motion run backwards are the same.", "quantifier": "every pair of robots and histories so related, every state, torques, accelerations and external forces; without friction; exact arithmetic", "why_tests_cant": "A symmetry is a statement about all pairs of robots; tests use one numbering and one base frame.", "anchors": ["src/structs/articulated_body.cc:AddRigidBody", "src/algorithms/forward_kinematics.cc:Jacobian", "src/algorithms/inverse_dynamics.cc:InverseDynamics", "src/algorithms/inverse_dynamics.cc:Inertia", "src/algorithms/forward_dynamics.cc:ForwardDynamics", "src/algorithms/forward_dynamics.cc:ForwardDynamicsAba"]}
{"id": "C62", "title": "Lagrange's equations and conserved momenta", "statement": "Along every differentiable motion of the robot, the torque InverseDynamics returns for joint i (velocity terms on, no friction) is d/dt(dL/d dq_i) - dL/d q_i plus ExternalTorques, where L = dq' Inertia dq / 2 minus, with gravity on, the potential energy of the masses at the positions Position() gives. For a joint attached to the base, the momentum (row i of Inertia times dq) changes at the rate of the torque less Gravity and ExternalTorques only, so it stays constant in every motion ForwardDynamics produces without torque and gravity on that joint, whatever the other joints do.", "quantifier": "every robot, history, differentiable motion, joint and set of external forces; no friction; over the reals", "why_tests_cant": "An equation between derivatives along all motions; tests have neither the Lagrangian nor exact derivatives.", "anchors": ["src/algorithms/inverse_dynamics.cc:InverseDynamics", "src/algorithms/inverse_dynamics.cc:CentrifugalCoriolis", "src/algorithms/inverse_dynamics.cc:Inertia", "src/algorithms/forward_dynamics.cc:ForwardDynamics"]}
{"id": "C63", "title": "The simulator application", "statement": "The loop of apps/opspace/src/main.cc: its goal starts where the end effector is at the home posture, and is moved only by keys, by 0.1 mm for each iteration a key is down. After any number of iterations the torques and external forces of the next one are those of a robot with the same state and an empty cache. With a constant time step the published configurations obey the discrete Euler-Lagrange equations for the published torques, the user's forces and gravity as long as the integrator converges. The published torques are those of the end-effector task (position and orientation, position alone at a singularity), plus those of the posture task in its nullspace, plus gravity, all for the robot as it is, and they produce the commanded end-effector acceleration whatever the posture task asks for. A point held with the mouse acts as a spring of 100 N/m between point and mouse; what is held elsewhere does not act, nor does a force on link -1. A robot started at rest that nobody touches stays exactly at home, and the published torques are gravity's.", "quantifier": "every robot, home posture, sequence of web messages, gains and time steps; every behaviour of the linear algebra and control libraries the statement does not restrict", "why_tests_cant": "The application is an endless loop driven by Redis and a browser; there is no test of it, and stale caches or a drifting rest state only show after particular sequences of inputs.", "anchors": ["apps/opspace/src/main.cc:main", "apps/opspace/src/main.cc:ComputeExternalForces", "apps/opspace/src/main.cc:AdjustPosition", "src/algorithms/discrete_dynamics.cc:discrete::Integrate"]}
{"id": "C64", "title": "Control loops through the Python controller", "statement": "A program that calls opspace_control again and again on one robot (with dt, to simulate, or without) gets the torques, statuses and motion it would get if the robot's caches were thrown away before every call: nothing an earlier iteration left behind leaks into a later one. No iteration fails if the controllers return vectors of the right sizes, and the motion is, step after step, the fourth-order Runge-Kutta integration of the robot moving freely under gravity and the torques returned.", "quantifier": "every robot, history, state, sequence of controllers and time steps, every pseudo-inverse and solver; exact arithmetic (the motion over the reals)", "why_tests_cant": "A statement about loops of every length on every robot; a stale cache shows only after particular sequences of calls.", "anchors": ["src/python/spatial_dyn.cc:ComputeOpspaceControl", "spatialdyn/opspace_control.py:opspace_control", "src/algorithms/simulation.cc:Integrate"]}
{"id": "C65", "title": "Functions of the Python module: arrays, names and optional configurations", "statement": "opspace.inverse_dynamics called with a square numpy array of doubles, whatever its strides and place in memory, gives the torques of the C++ function for the matrix in the array, leaves the new nullspace matrix in the array and changes no other memory; arrays of another shape never work. So tasks called one after another with one array that starts as the identity are executed in order of priority, the first one exactly. Defect: an array of integers or float32 is converted to a hidden copy, the caller's array is not updated, and the first task is disturbed by the later ones without any error. hessian returns the array whose entry (i, j, k) is component k of the second derivative for joints i and j. integrate finds the method by its name in any mixture of cases, and refuses other names leaving the robot as it is. Passing q to position, orientation or the Jacobian functions gives what they give after setting q.", "quantifier": "every robot, task, array layout (offsets, strides, overlaps with nothing), method name and configuration", "why_tests_cant": "Tests use contiguous float64 arrays; the silent loss of the nullspace happens for dtypes and is visible only in the motion of a robot with two tasks.", "anchors": ["src/python/spatial_dyn.cc:opspace.inverse_dynamics", "src/python/spatial_dyn.cc:hessian", "src/python/spatial_dyn.cc:integrate", "src/python/spatial_dyn.cc:jacobian"]}
{"id": "C66", "title": "The end-effector is driven toward the goal position", "statement": "Where the task inertia is invertible, the torques of opspace_control accelerate the end-effector (beyond what its velocity and gravity do) as the documented law says: toward pos with the gains given, axis by axis, and against its velocity, whatever the joint task and the orientation task ask for. This holds when task_ori is not given. Defect: task_ori, documented as the orientation of the frame whose axes the gains refer to, changes the direction of the pull even when the gains of all axes are equal: the Jacobian is turned by it but the position error is not, so the pull is turned by the inverse of task_ori; with half a turn across the way to the goal the end-effector is pushed straight away from the goal, at any distance.", "quantifier": "every robot with proper inertias and a fixed base, every configuration, velocity, goal, gains, task offset and task orientation, every history of calls; exact arithmetic; PdControl as documented and unclipped", "why_tests_cant": "A test drives one arm to a few goals, practically always without task_ori or with the identity; the direction of the pull for every goal and orientation is a statement about a product of matrices computed in five calls.", "anchors": ["src/python/spatial_dyn.cc:59-103", "spatialdyn/opspace_control.py:52-58", "spatialdyn/opspace_control.py:108-133"]}
{"id": "C67", "title": "Arrays obtained from ab.q and ab.dq are windows, not copies", "statement": "In Python, after x = ab.q the name x is another spelling of ab.q: in any program that gives x no other value and adds no link, x can be replaced by ab.q everywhere without changing what the program does or shows (likewise ab.dq). Defects that follow: a program that saves the state this way does not save it, assigning x back after any motion changes nothing; passing x as the joint goal of opspace_control holds nothing, it is the same as giving no goal; and after a link has been added using x reads freed memory. Assigning an array of the wrong length raises and changes nothing. Copies do save: whatever the program does in between to move the robot (set, integrate, control, ask), assigning back copies of q and dq succeeds and every pose, Jacobian and term of the dynamics, forward and inverse, is again what it was.", "quantifier": "every robot, history, program over the statements modelled (assignments, copies, setters, library calls, the controller), and every length of program; comparisons of numbers reflexive (no NaN) for assigning back", "why_tests_cant": "Tests save and compare states within one function; that a name means the live state in all later programs is a statement about all programs, and reading freed memory usually goes unnoticed.", "anchors": ["src/python/spatial_dyn.cc:160-167", "src/structs/articulated_body.cc:92-128", "src/structs/articulated_body.cc:255-259", "spatialdyn/opspace_control.py:261-266"]}
{"id": "C68", "title": "Defect: the example control loop stops before it has moved", "statement": "apps/opspace/opspace.py runs opspace_control until it reports convergence. On a robot at rest, as the program starts, the loop ends after the first call, whatever the robot and the gains: the program moves the robot by a single 1 ms integration step from the home position and ends with the position test not met, 20 cm from its goal. In general the loop goes on after a call exactly when none of the four errors (position, linear velocity, orientation, angular velocity) is within its threshold and the task is not singular; it ends as soon as any one of them is, not when all are.", "quantifier": "every robot at rest, home position, offset, control law, interruption pattern and iteration bound; for the general statement every robot state and controller", "why_tests_cant": "The program needs a display of long runs to be judged by eye; that it always ends at once is a statement about every robot and control law.", "anchors": ["apps/opspace/opspace.py:33-66", "spatialdyn/opspace_control.py:128-133", "src/python/spatial_dyn.cc:105-136"]}
{"id": "C69", "title": "Defect: the simulator in Python never completes an iteration", "statement": "apps/opspace/python/spatial_dyn_opspace.py, whatever Redis answers and however long it is left running, sends the home position at the start and zero torques at the end and nothing else about the robot: the first iteration uses spatialdyn.opspace.near_quaternion, which the module does not have (its binding is commented out), and the exception is caught and ends the loop. Adding only one of the two missing functions (near_quaternion, orientation_error) does not help.", "quantifier": "every robot with a joint, home position, sequence of answers of Redis and number of iterations", "why_tests_cant": "The program ends normally after printing a message; no test runs it. That no input makes it iterate is a statement about all answers of Redis.", "anchors": ["apps/opspace/python/spatial_dyn_opspace.py:71-170", "src/python/spatial_dyn.cc:541-618"]}
{"id": "C70", "title": "Robots in MATLAB are shared, and only delete frees them", "statement": "A MATLAB program that loads robots, copies and clears variables, calls the functions of robots and deletes robots shows, wherever robots are allocated, what it would show if variables were names of robots: a copy of a variable is the same robot (a function called through one moves the other), robots loaded separately never affect each other. This holds for every program that does not use or delete a robot it has already deleted; every other program has undefined behaviour (the object keeps its pointer), and may silently work on a robot loaded later. Robots are freed by delete only: clearing or overwriting the last variable leaks the robot, so the robots in memory are exactly those loaded less those deleted.", "quantifier": "every program (sequence of loads, assignments, clears, deletes and calls of any functions), every robot and every allocator", "why_tests_cant": "Which memory is reused depends on the allocator; a test sees one allocator and one program.", "anchors": ["matlab/+spatialdyn/ArticulatedBody.m:1-25", "src/matlab/load_model.cc:22-32", "src/matlab/delete_articulated_body.cc:22-28", "src/matlab/gravity.cc:23-30"]}
{"id": "C71", "title": "The inverse transforms undo the transforms, and Map visits every link", "statement": "T_from_world(i) undoes T_to_world(i), and T_from_parent(i) (or T_from_parent(i, q)) undoes T_to_parent(i) (or T_to_parent(i, q)): taking any point through one and then the other returns it, in either order. Going from a link to the world with T_to_world and down to the link it was attached to with T_from_world is T_to_parent. The answers are those of a robot whose cache holds nothing, whatever was asked before; an index out of range is undefined behaviour. All fixed transforms must be rigid: nothing checks them, and with a scaled matrix T_from_world does not undo T_to_world. Map(f) calls f on the links in order and returns one number per link; it throws exactly if f throws on some link.", "quantifier": "every robot, history, valid index, joint position and point; every function given to Map", "why_tests_cant": "Holds for every configuration and every history of queries; a test checks some poses.", "anchors": ["include/spatial_dyn/structs/articulated_body.h:T_from_parent", "include/spatial_dyn/structs/articulated_body.h:T_from_world", "src/structs/articulated_body.cc:ArticulatedBody::Map", "src/python/spatial_dyn.cc:185-220"]}
{"id": "C72", "title": "Links kept in Python variables are lost when the robot grows", "statement": "x = ab.rigid_bodies[i] makes x the link that has number i at that moment, whatever the robot becomes later (x = ab.rigid_bodies[-1] goes on meaning the link that was last). A program that builds the robot first and keeps links afterwards does and shows exactly what it means: edits through x edit that link, and add_rigid_body(x, p) elsewhere copies it. Links may also be added while others are kept, as long as the storage of the robot has room. Once more links are added than there was room for when x was taken, reading x, assigning to its attributes and adding it are undefined behaviour; no way in which the storage may grow avoids this. Every program that does not fail does what it means.", "quantifier": "every program (sequence of keeping, showing, editing and adding links and calls of the API), every robot and every way in which the storage grows", "why_tests_cant": "Reading freed memory usually goes unnoticed, and when storage moves depends on the C++ library.", "anchors": ["src/python/spatial_dyn.cc:154-159", "src/structs/articulated_body.cc:241-252", "include/spatial_dyn/structs/articulated_body.h:rigid_bodies_"]}
{"id": "C73", "title": "Adding a link to a robot in use leaves the rest alone", "statement": "When a link is added to a robot, at any time, its joint starts at position and velocity zero and the state of the others is kept; every pose (T_to_parent, T_to_world, Position, Orientation, CartesianPose) of a link that was there is what it was; every Jacobian of such a link is what it was with one more zero column. The gravity torque of a joint that was there changes by exactly minus the weight of the new link seen through its Jacobian, and the inertia matrix over those joints grows by exactly the kinetic-energy matrix of the new link. External forces on the links that were there load those joints as before and the new joint not at all. A load put on the number of a link that is not there yet counts from the moment that link is added, as if it had been put on afterwards.", "quantifier": "every robot, history (the base not moved after the first query), link added, parent, index, point; positive masses, rigid transforms and symmetric inertias for the last two", "why_tests_cant": "The cached values that must be dropped or kept depend on what was asked before the link was added.", "anchors": ["src/structs/articulated_body.cc:ArticulatedBody::AddRigidBody", "src/structs/articulated_body.cc:ArticulatedBody::ExpandDof", "src/algorithms/forward_kinematics.cc:Jacobian", "src/structs/articulated_body.cc:ArticulatedBody::AddLoad", "src/algorithms/inverse_dynamics.cc:Gravity", "src/algorithms/inverse_dynamics.cc:Inertia"]}
