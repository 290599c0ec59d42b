{
 "claims": [
  {
   "property": "C01",
   "status": "proved",
   "theorems": [
    "C01_tree"
   ],
   "note": ""
  },
  {
   "property": "C02",
   "status": "proved",
   "theorems": [
    "C02_add",
    "C02_set_q",
    "C02_set_dq"
   ],
   "note": ""
  },
  {
   "property": "C03",
   "status": "proved",
   "theorems": [
    "C03_pose",
    "C03_jacobian",
    "C03_jacobian_doubles",
    "C03_doubles"
   ],
   "note": "Any arithmetic with commutative addition; C03_jacobian_doubles covers arithmetic where == is not equality."
  },
  {
   "property": "C04",
   "status": "proved",
   "theorems": [
    "C04_dynamics"
   ],
   "note": ""
  },
  {
   "property": "C05",
   "status": "proved",
   "theorems": [
    "C05_cache_independent"
   ],
   "note": ""
  },
  {
   "property": "C06",
   "status": "proved",
   "theorems": [
    "C06_world_stale",
    "C06_gravity_stale",
    "C06_jacobian_stale",
    "C06_refuted"
   ],
   "note": "Universal staleness theorems for any arithmetic, and a concrete history where the answers differ from those of a fresh robot."
  },
  {
   "property": "C07",
   "status": "proved",
   "theorems": [
    "C07_world",
    "C07_explicit",
    "C07_index",
    "C07_range"
   ],
   "note": ""
  },
  {
   "property": "C08",
   "status": "proved",
   "theorems": [
    "C08_overloads",
    "C08_sparsity",
    "C08_halves"
   ],
   "note": ""
  },
  {
   "property": "C09",
   "status": "proved",
   "theorems": [
    "C09_motion",
    "C09_columns"
   ],
   "note": "Over the reals; along any differentiable motion, and column by column."
  },
  {
   "property": "C10",
   "status": "proved",
   "theorems": [
    "C10_points",
    "C10_push",
    "C10_compose",
    "C10_identity",
    "C10_inverse",
    "C10_power",
    "C10_cross",
    "C10_dual",
    "C10_jacobi",
    "C10_cross_textbook",
    "C10_translation"
   ],
   "note": ""
  },
  {
   "property": "C11",
   "status": "proved",
   "theorems": [
    "C11_momentum",
    "C11_matrix",
    "C11_energy_symmetric",
    "C11_transform",
    "C11_add",
    "C11_matrix_transform",
    "C11_flat"
   ],
   "note": ""
  },
  {
   "property": "C12",
   "status": "proved",
   "theorems": [
    "C12_inertia"
   ],
   "note": ""
  },
  {
   "property": "C13",
   "status": "proved",
   "theorems": [
    "C13_definite"
   ],
   "note": "Over the reals."
  },
  {
   "property": "C14",
   "status": "proved",
   "theorems": [
    "C14_decomposition"
   ],
   "note": ""
  },
  {
   "property": "C15",
   "status": "proved",
   "theorems": [
    "C15_weights",
    "C15_potential"
   ],
   "note": "C15_weights holds over any field; C15_potential (derivative of the potential energy) is over the reals."
  },
  {
   "property": "C16",
   "status": "proved",
   "theorems": [
    "C16_external"
   ],
   "note": ""
  },
  {
   "property": "C17",
   "status": "proved",
   "theorems": [
    "C17_inverse"
   ],
   "note": "The LDLT solver is an oracle; solver_ok says it solves the system. The friction options are excluded (friction depends on the commanded torque)."
  },
  {
   "property": "C18",
   "status": "proved",
   "theorems": [
    "C18_aba",
    "C18_agrees",
    "C18_fresh",
    "C18_solid"
   ],
   "note": "Any field with exact arithmetic. unmixed: histories mixing loads with the opspace *Aba queries are excluded, because those corrupt the shared cache (C45). C18_fresh holds for any arithmetic with commutative addition. C18_solid, over the reals, replaces the condition on articulated joint inertias by positive definite link inertias."
  },
  {
   "property": "C19",
   "status": "proved",
   "theorems": [
    "C19_chain",
    "C19_related",
    "C19_solid"
   ],
   "note": "C19_related gives the part that also holds for branching robots; the rest is C20. C19_solid: over the reals, for solid links."
  },
  {
   "property": "C20",
   "status": "proved",
   "theorems": [
    "C20_uninitialised"
   ],
   "note": "Any arithmetic; mem is the content of the memory the cache was allocated in."
  },
  {
   "property": "C21",
   "status": "proved",
   "theorems": [
    "C21_base_frame",
    "C21_refuted"
   ],
   "note": "C21_refuted is the witness, C21_base_frame the universal characterisation."
  },
  {
   "property": "C22",
   "status": "proved",
   "theorems": [
    "C22_history"
   ],
   "note": "Witness whose pseudo-inverse satisfies the Moore-Penrose conditions."
  },
  {
   "property": "C23",
   "status": "proved",
   "theorems": [
    "C23_conserved_aba",
    "C23_kinetic",
    "C23_total",
    "C23_conserved"
   ],
   "note": "Over the reals: kinetic energy without gravity, total energy with gravity and external forces, and conservation for motions of ForwardDynamics with zero torque (for any solver that solves). C23_conserved_aba is the same for motions of ForwardDynamicsAba, without a solver."
  },
  {
   "property": "C24",
   "status": "proved",
   "theorems": [
    "C24_friction",
    "C24_short_torque",
    "C24_stiction_drives"
   ],
   "note": "Over the reals. C24_stiction_drives is the defect for joints with stiction and no Coulomb friction."
  },
  {
   "property": "C25",
   "status": "proved",
   "theorems": [
    "C25_limits",
    "C25_rejected",
    "C25_accepts",
    "C25_subspace",
    "C25_nan_refuted"
   ],
   "note": "Limits over the reals with infinities; with doubles a NaN argument is accepted (C25_nan_refuted)."
  },
  {
   "property": "C26",
   "status": "proved",
   "theorems": [
    "C26_joint",
    "C26_one_parameter",
    "C26_robot"
   ],
   "note": "Joint part in PropJoint.v, T_to_parent / T_to_world in PropKin.v."
  },
  {
   "property": "C27",
   "status": "proved",
   "theorems": [
    "C27_joint_roundtrip",
    "C27_joint_parse",
    "C27_geometry_roundtrip",
    "C27_geometry_parse"
   ],
   "note": ""
  },
  {
   "property": "C28",
   "status": "proved",
   "theorems": [
    "C28_limits_any",
    "C28_formulas_any",
    "C28_constant",
    "C28_limits",
    "C28_formulas"
   ],
   "note": "Over the reals. The _any theorems hold for every forward dynamics function that leaves the robot alone; C28_limits and C28_formulas are for Integrate with ForwardDynamics or ForwardDynamicsAba after any history. LDLT is an oracle."
  },
  {
   "property": "C29",
   "status": "proved",
   "theorems": [
    "C29_absorbed",
    "C29_absorbed_warm",
    "C29_stray",
    "C29_table"
   ],
   "note": "C29_absorbed needs no arithmetic laws. The opspace *Aba functions ignore loads (C45)."
  },
  {
   "property": "C30",
   "status": "proved",
   "theorems": [
    "C30_copy",
    "C30_assign",
    "C30_move",
    "C30_moved_from",
    "C30_base_inertia_refuted"
   ],
   "note": "Objects are values in the model, so non-interference between copy and source is built in; the theorems are about equal behaviour after any further history."
  },
  {
   "property": "C31",
   "status": "proved",
   "theorems": [
    "C31_T_to_world_q",
    "C31_CartesianPose_q",
    "C31_T_from_world_q"
   ],
   "note": "An indeterminate read is modelled as undefined behaviour."
  },
  {
   "property": "C32",
   "status": "proved",
   "theorems": [
    "C32_roundtrip",
    "C32_joint",
    "C32_joint_built",
    "C32_pickle",
    "C32_infinite",
    "C32_default_limits",
    "C32_pickle_refuted"
   ],
   "note": "Any scalars, doubles included. nlohmann::json values are modelled; ctrl_utils' conversion of placements is an oracle (near = what it gives back), of vectors an array. Dumping and parsing text: non-finite numbers become null, invalid UTF-8 throws, the rest is exact. C32_pickle_refuted: unpickling loses the base inertia."
  },
  {
   "property": "C33",
   "status": "proved",
   "theorems": [
    "C33_yaml",
    "C33_yaml_refuted"
   ],
   "note": "C33_yaml is the universal characterisation (everything but the parents survives), C33_yaml_refuted a witness. Same oracles as C32."
  },
  {
   "property": "C34",
   "status": "proved",
   "theorems": [
    "C34_reading",
    "C34_document",
    "C34_order",
    "C34_accepts",
    "C34_assembles",
    "C34_doubles",
    "C34_links",
    "C34_poses",
    "C34_bodies",
    "C34_mass"
   ],
   "note": "tinyxml2's document is the model's input (a tree of elements); number and vector readers are arbitrary functions. C34_order and C34_assembles hold for any arithmetic (C34_doubles discharges masses_add for IEEE doubles); C34_bodies needs positive masses."
  },
  {
   "property": "C35",
   "status": "proved",
   "theorems": [
    "C35_axis",
    "C35_directions",
    "C35_axis_refuted",
    "C35_inertia",
    "C35_inertia_refuted",
    "C35_missing_child",
    "C35_rootless"
   ],
   "note": "C35_axis and C35_directions are over the reals; C35_inertia is the universal characterisation, C35_inertia_refuted and C35_axis_refuted the witnesses."
  },
  {
   "property": "C36",
   "status": "proved",
   "theorems": [
    "C36_inverses",
    "C36_projected",
    "C36_stack"
   ],
   "note": "Any field; LDLT and the pseudo-inverse are oracles, assumed exact (solver_ok, inverse_of) on the matrices they are called with. C36_stack is about a stack of tasks of any length, without the centrifugal/Coriolis option (C38) and with clipping off."
  },
  {
   "property": "C37",
   "status": "proved",
   "theorems": [
    "C37_fresh_lambda",
    "C37_fresh_one",
    "C37_stale",
    "C37_refuted"
   ],
   "note": "C37_stale is the universal defect, C37_refuted a witness where the stale answer is a different matrix, C37_fresh_* what does hold."
  },
  {
   "property": "C38",
   "status": "proved",
   "theorems": [
    "C38_coriolis",
    "C38_link0",
    "C38_coriolis_refuted",
    "C38_friction",
    "C38_friction_refuted"
   ],
   "note": "Universal characterisations (C38_coriolis, C38_link0, C38_friction) and witnesses."
  },
  {
   "property": "C39",
   "status": "proved",
   "theorems": [
    "C39_clipping"
   ],
   "note": "Over the reals."
  },
  {
   "property": "C40",
   "status": "proved",
   "theorems": [
    "C40_directions",
    "C40_columns"
   ],
   "note": "Any field; VelocityDerivative has no friction term, so the friction option must be off. C40_columns follows a single joint's velocity."
  },
  {
   "property": "C41",
   "status": "proved",
   "theorems": [
    "C41_undefined",
    "C41_roots"
   ],
   "note": "C41_undefined holds in any arithmetic (doubles included): the size mismatch is modelled as undefined behaviour. C41_roots is over the reals."
  },
  {
   "property": "C42",
   "status": "proved",
   "theorems": [
    "C42_hessian",
    "C42_angular_refuted"
   ],
   "note": "C42_hessian gives the linear part, the angular part for i <= j and the symmetry; C42_angular_refuted is the defect."
  },
  {
   "property": "C43",
   "status": "proved",
   "theorems": [
    "C43_sum",
    "C43_inertia",
    "C43_undefined",
    "C43_undefined_joint",
    "C43_singular"
   ],
   "note": "IEEE binary64 as in Coq's SpecFloat, with arbitrary sine, cosine and truncation; C43_singular is in exact arithmetic."
  },
  {
   "property": "C44",
   "status": "proved",
   "theorems": [
    "C44_within",
    "C44_status",
    "C44_total",
    "C44_task",
    "C44_boolean",
    "C44_defaults"
   ],
   "note": "ctrl_utils::PdControl and NearQuaternion are external: arbitrary functions. C44_task is in exact arithmetic with the linear solver and pseudo-inverse hypotheses named; C44_total excludes dt > 0 (then Integrate runs, see C28)."
  },
  {
   "property": "C45",
   "status": "proved",
   "theorems": [
    "C45_ignored",
    "C45_poison"
   ],
   "note": "First part universal for any arithmetic, second part a witness."
  },
  {
   "property": "C46",
   "status": "proved",
   "theorems": [
    "C46_empty_name",
    "C46_material",
    "C46_weightless",
    "C46_dropped",
    "C46_fixed",
    "C46_unknown_type",
    "C46_python"
   ],
   "note": "Universal statements on documents; pybind11's move of the returned robot is part of the model of load_model."
  },
  {
   "property": "C47",
   "status": "proved",
   "theorems": [
    "C47_fresh",
    "C47_steps",
    "C47_impulses"
   ],
   "note": "C47_fresh holds in any arithmetic with commutative addition; C47_steps says which doubles are steps it applies to; C47_impulses is over exact arithmetic. ctrl_utils::Log and LogMapDerivative are oracles."
  },
  {
   "property": "C48",
   "status": "proved",
   "theorems": [
    "C48_recurrence"
   ],
   "note": "Exact arithmetic. Whether the iteration converges is claimed only for sliding joints (C49_sliding_converges); unconverged steps are in C50."
  },
  {
   "property": "C49",
   "status": "proved",
   "theorems": [
    "C49_reversal",
    "C49_rest",
    "C49_balance",
    "C49_sliding",
    "C49_sliding_converges"
   ],
   "note": "Exact arithmetic; the properties of the logarithm used are hypotheses, met by concrete logarithms in DiscreteSamples.v."
  },
  {
   "property": "C50",
   "status": "proved",
   "theorems": [
    "C50_loads_ignored",
    "C50_loads_refuted",
    "C50_memory_refuted",
    "C50_query_forgets",
    "C50_query_refuted",
    "C50_unconverged_refuted",
    "C50_no_iterations_refuted",
    "C50_velocity_refuted"
   ],
   "note": "Universal: C50_loads_ignored, C50_query_forgets. The others are witnesses."
  },
  {
   "property": "C51",
   "status": "proved",
   "theorems": [
    "C51_tolerance",
    "C51_steps",
    "C51_result",
    "C51_total",
    "C51_at_goal",
    "C51_fresh",
    "C51_unreachable",
    "C51_second_robot",
    "C51_link_refuted"
   ],
   "note": "PD laws and orientation error are oracles; nothing is claimed about convergence of the iteration. Histories without set_T_base after a query and with one singularity threshold. C51_fresh needs exact arithmetic; the others hold for doubles (given sound comparison). C51_unreachable, C51_second_robot are universal, C51_link_refuted a witness."
  },
  {
   "property": "C52",
   "status": "proved",
   "theorems": [
    "C52_torques",
    "C52_arrived",
    "C52_total",
    "C52_fresh",
    "C52_achieves",
    "C52_motion",
    "C52_step_refuted"
   ],
   "note": "ctrlutils.pd_control is an oracle. C52_total holds for doubles. C52_step_refuted is a witness; that every step given is integrated is in C52_torques."
  },
  {
   "property": "C53",
   "status": "proved",
   "theorems": [
    "C53_gravity",
    "C53_inertia",
    "C53_hessian",
    "C53_coriolis",
    "C53_inverse_dynamics",
    "C53_velocity_derivative",
    "C53_position",
    "C53_jacobian",
    "C53_jacobian_dynamic_inverse",
    "C53_discrete",
    "C53_stored",
    "C53_rows"
   ],
   "note": "Bases fixed once queried. C53_gravity, _inertia, _hessian, _coriolis, _discrete hold in any arithmetic with commutative addition and a comparison that only identifies equal numbers; the others in exact arithmetic. The MATLAB Data API is modelled by arrays with dimensions and contents. C53_jacobian_dynamic_inverse assumes earlier operational-space queries used the same threshold (C37)."
  },
  {
   "property": "C54",
   "status": "proved",
   "theorems": [
    "C54_ik_undefined",
    "C54_ik_guess",
    "C54_ik_orientation",
    "C54_coriolis_stored",
    "C54_coriolis_columns",
    "C54_jbar_link",
    "C54_jbar_stored",
    "C54_position_derivative"
   ],
   "note": "Universal statements. Reading past the end of an array and assigning a block of the wrong size are undefined behaviour in the model."
  },
  {
   "property": "C55",
   "status": "proved",
   "theorems": [
    "C55_assign",
    "C55_edits_first",
    "C55_edits_first_jacobian",
    "C55_set_q_repairs",
    "C55_set_q_repairs_jacobian",
    "C55_stale",
    "C55_refuted",
    "C55_inverse_dynamics_refuted",
    "C55_mass_unchecked",
    "C55_pickled_inertia"
   ],
   "note": "The staleness and freshness theorems hold in any arithmetic with commutative addition (doubles included); Jacobians need == to imply equality. Fetching a link and writing to it are one step: references kept across add_rigid_body are not modelled."
  },
  {
   "property": "C56",
   "status": "proved",
   "theorems": [
    "C56_defaults",
    "C56_at_rest",
    "C56_converted",
    "C56_refuted"
   ],
   "note": "The LDLT solver is an oracle assumed to solve the system; bases fixed once queried."
  },
  {
   "property": "C57",
   "status": "proved",
   "theorems": [
    "C57_answer",
    "C57_kept",
    "C57_outdated",
    "C57_overwritten_refuted"
   ],
   "note": "Any arithmetic. Adding links, which reallocates the storage, and copying are left out of the calls considered."
  },
  {
   "property": "C58",
   "status": "proved",
   "theorems": [
    "C58_balance",
    "C58_stiction",
    "C58_opspace",
    "C58_joint",
    "C58_balance_aba",
    "C58_stiction_aba"
   ],
   "note": "Exact arithmetic; friction over the reals. The robot is unchanged but for what is remembered. The solver of the inertia matrix is a hypothesis of C58_balance, C58_stiction and the controllers; C58_balance_aba and C58_stiction_aba (the option aba of Integrate) need none, but an unturned base when gravity is simulated, and no gravity with friction (C60_aba_refuted)."
  },
  {
   "property": "C59",
   "status": "proved",
   "theorems": [
    "C59_inertia_inverse",
    "C59_inertia",
    "C59_coriolis",
    "C59_gravity",
    "C59_offset_refuted",
    "C59_external_refuted"
   ],
   "note": "Exact arithmetic. The solver of the inertia matrix and (for Coriolis and gravity) the pseudo-inverse are hypotheses. C59_offset_refuted and C59_external_refuted are the defects; GravityAba is characterised on empty caches because of C22."
  },
  {
   "property": "C60",
   "status": "proved",
   "theorems": [
    "C60_slipping",
    "C60_slipping_aba",
    "C60_sticks",
    "C60_energy",
    "C60_dissipates",
    "C60_friction_aba",
    "C60_sticks_aba",
    "C60_forward",
    "C60_round_trip_refuted",
    "C60_aba_refuted"
   ],
   "note": "C60_forward in any exact arithmetic, the rest over the reals. slipping excludes joints with stiction but no Coulomb friction, for which the static branch is taken at every speed. C60_round_trip_refuted and C60_aba_refuted are the defects below the threshold. C60_friction_aba holds whatever the joints do; C60_sticks_aba needs gravity left out (C60_aba_refuted otherwise)."
  },
  {
   "property": "C61",
   "status": "proved",
   "theorems": [
    "C61_poses",
    "C61_jacobian",
    "C61_terms",
    "C61_inverse",
    "C61_forward",
    "C61_forward_aba"
   ],
   "note": "Exact arithmetic. C61_forward takes the solver of both inertia matrices and injectivity of the first as hypotheses; C61_forward_aba the articulated-joint condition of C18, and an unturned base if gravity is simulated (C21). Friction is excluded: its stiction threshold is an absolute speed."
  },
  {
   "property": "C62",
   "status": "proved",
   "theorems": [
    "C62_lagrange",
    "C62_root",
    "C62_conserved"
   ],
   "note": "Over the reals. Lag, p, F, P are determined by the hypotheses they satisfy (lagrangian and derivatives are unique). Friction is excluded as in C23; the solver hypothesis of C62_conserved is that of C17."
  },
  {
   "property": "C63",
   "status": "proved",
   "theorems": [
    "C63_start",
    "C63_fresh",
    "C63_motion",
    "C63_click",
    "C63_spring",
    "C63_elsewhere",
    "C63_minus_one",
    "C63_keys",
    "C63_hold",
    "C63_torque",
    "C63_commanded"
   ],
   "note": "Exact arithmetic (C63_keys and C63_spring over the reals). Redis replies, the timer and the PD laws are inputs; orientations are given by matrices, so the quaternion sign convention is inside the PD law. C63_hold assumes PD laws that ask for nothing at the goal, a logarithm that is zero at the identity, a norm below the tolerance at zero, the solver hypotheses of C17, and time steps other than zero. C63_commanded has the restrictions of C36 (exact inverse of the task inertia). C63_minus_one records that a force sent for link -1 is dropped."
  },
  {
   "property": "C64",
   "status": "proved",
   "theorems": [
    "C64_fresh",
    "C64_motion"
   ],
   "note": "C64_fresh in any ordered field with sound equality; C64_motion over the reals. Restrictions as in C03 and C37 (base pose set before links, one pseudo-inverse threshold); rigid joint transforms and positive masses (proper). Friction is off, as ComputeOpspaceControl integrates with the default options."
  },
  {
   "property": "C65",
   "status": "proved",
   "theorems": [
    "C65_nullspace",
    "C65_shape",
    "C65_stack",
    "C65_priority",
    "C65_converted",
    "C65_priority_refuted",
    "C65_hessian",
    "C65_integrate",
    "C65_q",
    "C65_pose"
   ],
   "note": "C65_nullspace, C65_shape, C65_hessian, C65_integrate with no law of arithmetic (doubles included); C65_stack and C65_converted use field laws; C65_priority adds the hypotheses of C36. The defect (arrays of another type are updated in a hidden copy) is C65_converted and C65_priority_refuted. How pybind11 converts arguments (copies unless the type is double) is part of the model in PyFuns.v."
  },
  {
   "property": "C66",
   "status": "proved",
   "theorems": [
    "C66_plain",
    "C66_frame",
    "C66_away"
   ],
   "note": "C66_plain is the promise where it holds, C66_frame what a task orientation does to it for any rotation, C66_away the defect. ctrl_utils::PdControl is external: drives_to states the documented law."
  },
  {
   "property": "C67",
   "status": "proved",
   "theorems": [
    "C67_follow",
    "C67_unrestored",
    "C67_goal",
    "C67_dangling",
    "C67_copied",
    "C67_refused",
    "C67_restore",
    "C67_restore_dynamics"
   ],
   "note": "C67_follow, C67_goal and C67_dangling with no law of arithmetic (doubles included); C67_unrestored for numbers equal to themselves; C67_restore needs == to imply equality (a saved -0 is not written over 0), C67_restore_dynamics the field laws. That a property getter returning a const reference to an Eigen vector gives a window is a fact about pybind11, part of the model in PyView.v."
  },
  {
   "property": "C68",
   "status": "proved",
   "theorems": [
    "C68_stops",
    "C68_short",
    "C68_continues"
   ],
   "note": "C68_stops and C68_continues need only field laws (and == to imply equality); C68_short is over the reals, with the error returned by the external control law being the difference from the goal. PdControl, the timer and signals are external: any law, any interruption."
  },
  {
   "property": "C69",
   "status": "proved",
   "theorems": [
    "C69_nothing",
    "C69_either"
   ],
   "note": "Redis, JSON text, the description of the robot sent at the start and the timer are external. C69_example shows the model iterates when both functions are given."
  },
  {
   "property": "C70",
   "status": "proved",
   "theorems": [
    "C70_meant",
    "C70_misuse",
    "C70_leak",
    "C70_copies",
    "C70_stale_refuted"
   ],
   "note": "Induction over programs: a simulation between addresses and robot numbers. The functions called are arbitrary functions of the robot (Matlab.v has the ones of the library); an exception ends the program. MATLAB itself (value classes, clear) is external."
  },
  {
   "property": "C71",
   "status": "proved",
   "theorems": [
    "C71_world",
    "C71_parent",
    "C71_between",
    "C71_range",
    "C71_fresh",
    "C71_scaled_refuted",
    "C71_map",
    "C71_map_throws"
   ],
   "note": "The base must be placed before the first query (C30). Python arguments that are neither None nor numbers are not modelled. C71_scaled_refuted shows that rigid fixed transforms are needed."
  },
  {
   "property": "C72",
   "status": "proved",
   "theorems": [
    "C72_meant",
    "C72_build_first",
    "C72_room",
    "C72_dangling",
    "C72_eventually"
   ],
   "note": "Refinement to programs whose variables are link numbers, by induction over programs. std::vector is taken to move its elements exactly when the capacity is used up; the new capacity is arbitrary (larger than the number of links). One robot; variables hold its links only."
  },
  {
   "property": "C73",
   "status": "proved",
   "theorems": [
    "C73_state",
    "C73_pose",
    "C73_jacobian",
    "C73_gravity",
    "C73_inertia",
    "C73_external",
    "C73_load_first"
   ],
   "note": "C73_jacobian is about the overload taking q at the present q; C08_overloads says the other agrees. Loads registered for the new link number are part of bodies_on."
  }
 ]
}
