# Formal model of spatial-dyn: design

Source modelled: `/repo` (C++ and the Python files of `spatialdyn/`), read as text.
Everything below is in Rocq (Coq 8.16.1), under `rocq/theories`. `properties.jsonl`
holds the English properties, `MANIFEST.json` maps them to theorems,
`seeded/LOG.jsonl` records wrong programs the theorems were tried against.

## 1. Approach

* **Scalars are a parameter.** The code computes with `double`. The model is a
  set of plain Gallina functions over a record `Scal` of scalar operations
  (`Scalar.v`): `+ - * /`, `sin`, `cos`, `sqrt`, `abs`, `<`, `==`, literals,
  truncation to an integer. Theorems come in three strengths:
  1. *No laws of arithmetic* (tree structure, cache coherence, parsers, totality):
     these hold for IEEE doubles, rounding included. Where needed the only law is
     `AddComm` (addition commutes; true of doubles) or `EqSound` (`==` implies
     equality; false of doubles only for +0/-0, and `C03_jacobian_doubles` covers
     that case).
  2. *Field laws and cos^2+sin^2=1* (`ScalLaws`, with `PosLaws` for signs): exact
     arithmetic. They hold for the reals and for the executable rational instance
     `QcScal`.
  3. *Real numbers* (`RScal`): derivatives and inequalities, Coq's `Reals` and
     Coquelicot.
  `F64of` is binary64 from Coq's `SpecFloat` with arbitrary sine, cosine and
  truncation (`Instances.v`); used for NaN statements.
* **Arrays** (`std::vector` of per-link data, dynamic Eigen matrices in the cache)
  are total functions `nat -> T` updated pointwise, so stale or uninitialised
  contents are represented: a loop receives the old array and overwrites entries.
  Sizes are tracked separately; user-supplied vectors are lists and are
  length-checked.
* **Loops** are folds over the index sequence the C++ loop visits, with the same
  bodies and the same order of writes. Iterative algorithms (discrete integration,
  inverse kinematics) take the iteration limit of the code as fuel; running out is
  reported, not hidden.
* **Results.** Queries return `Ok v | Throw | UB`, mutators `Ret s a | Exn s | Bad`
  (`Base.v`). Null dereference, out-of-range index, reading an uninitialised
  object, Eigen size mismatch are `UB`/`Bad`.
* **The mutable cache** is part of the state (`Body.v`). A `const` query is a
  function from the state to a new state and a result. "Never stale" is: the result
  equals that of `cold ab mem`, the same robot with a cache none of whose flags is
  set over arbitrary memory `mem`.
* **Histories.** `Ops.v`: `op` is any API call, `run` a list of them,
  `reached solve pinv h ab` says that the history `h` on a new robot ends in `ab`.
  Theorems quantify over all histories; restrictions are predicates on `h` and each
  has its own defect theorem showing why it is there:
  `base_fixed` (no `set_T_base` after a query; C06), `one_threshold` (one SVD
  threshold; C37), `unmixed` (no loads together with the opspace `*Aba` queries;
  C45), `no_integration` (no discrete integration; C50).
* **Hypotheses on robots**: `rigid_robot` (placements are rotations), `proper`
  (rigid, positive total mass on every link, symmetric rotational inertia),
  `massive`/`solid` (C13), `articulable` (no joint with zero articulated inertia, C18).
* **Specifications** are in `Spec*.v`, `Specs.v`; they use only the API (`ask`,
  `outcome`, `step`) and elementary sums. Property theorems are in `Prop*.v`, one
  line of proof each, with examples that their hypotheses are met. `Samples.v`,
  `ParseSamples.v`, `UrdfSamples.v`, `DiscreteSamples.v` hold the concrete robots,
  `Checks.v` decision procedures for hypotheses.

## 2. Files

| code | model | specification | properties |
|---|---|---|---|
| Eigen, `eigen/*.h` | `Spatial.v` | `SpecGeo.v` | C10, C11 `PropSpatial.v`, `PropPoint.v` (`SpecPoint.v`) |
| `joint.{h,cc}` | `Joint.v` | `Specs.v` | C25–C27 `PropJoint.v` |
| `articulated_body.{h,cc}`, `articulated_body_cache.h`, `rigid_body.*`, `graphics.h` | `Body.v`, `Ops.v` | `Specs.v`, `SpecCache.v` | C01, C02 `PropTree.v`; C03, C04, C06, C30 `PropCache.v` |
| `forward_kinematics.cc` | `Kin.v` | `SpecKin.v`, `SpecReal.v` | C07, C08, C31 `PropKin.v`; C09, C42 `PropReal.v` |
| `inverse_dynamics.cc`, `forward_dynamics.cc` | `InvDyn.v`, `FwdDyn.v` | `SpecDyn.v`, `SpecAba.v`, `SpecReal.v`, `SpecFric.v`, `SpecSame.v`, `SpecLag.v` | C05, C12–C17, C29 `PropDyn.v`; C18–C22 `PropAba.v`; C23 `PropReal.v`; C60 and C18, C19, C23 for solid links `PropFric.v`, `PropFricQ.v`, `PropFricAba.v`; C61 `PropSame.v`; C62 `PropLag.v`; C43 `PropNan.v` |
| `opspace_dynamics.cc`, `opspace_dynamics_aba.cc` | `Opspace.v`, `OpspaceAba.v` | `SpecOps.v`, `SpecAba.v` | C36–C39 `PropOps.v`; C45 `PropAba.v`; C59 `PropOa.v` |
| `dynamics_derivatives.cc` | `Deriv.v` | `SpecDyn.v` | C40, C41 `PropDeriv.v` |
| `simulation.cc` | `Sim.v` | `SpecSim.v` | C24, C28 `PropSim.v` |
| `discrete_dynamics.cc` | `Discrete.v` | `SpecDiscrete.v` | C47–C50 `PropDiscrete.v` |
| `inverse_kinematics.cc` | `Ik.v` | `SpecIk.v` | C51 `PropIk.v` |
| `json.cc`, `yaml.cc`, pickling | `Json.v` | `SpecParse.v` | C32, C33 `PropParse.v` |
| `urdf.cc`, `load_model` | `Urdf.v` | `SpecUrdf.v` | C34, C35, C46 `PropUrdf.v` |
| `python/spatial_dyn.cc` (controller), `opspace_control.py` | `Control.v` | `SpecControl.v`, `SpecFrame.v` | C44 `PropControl.v`; C66 `PropFrame.v` |
| `apps/opspace/python/spatial_dyn_opspace.py` | `PyApp.v` | — | C69 `PropPyApp.v` |
| `matlab/+spatialdyn/ArticulatedBody.m`, `matlab/load_model.cc`, `matlab/delete_articulated_body.cc` | `MatObj.v` | `SpecMatObj.v` | C70 `PropMatObj.v` |
| `include/structs/articulated_body.h` (T_from_parent, T_from_world), `src/structs/articulated_body.cc` (Map), `src/python/spatial_dyn.cc:185-220` | `KinInv.v` | `SpecKinInv.v` | C71, C31 (T_from_world) `PropKinInv.v` |
| `src/python/spatial_dyn.cc:147-279` (links kept in variables), `src/structs/articulated_body.cc:248` (growth of the vector) | `PyKeep.v` | `SpecPyKeep.v` | C72 `PropKeep.v` |
| `apps/opspace/opspace.py` | `PyDemo.v` | `SpecControl.v`, `SpecSim.v` | C68 `PropDemo.v` |
| `python/spatial_dyn.cc` (`ab.q`, `ab.dq` held by a program) | `PyView.v` | `SpecView.v` | C67 `PropView.v` |
| `joint_space_control.py` | `JointControl.v` | `SpecJs.v` | C52 `PropJs.v` |
| `src/matlab/*.cc` (not `load_model`, `delete_articulated_body`) | `Matlab.v` | `SpecMatlab.v` | C53, C54 `PropMatlab.v` |
| `python/spatial_dyn.cc` (links edited in place, pickled inertia) | `PyEdit.v` | `SpecEdit.v`, `SpecAttr.v` | C55 `PropPy.v`, `PropAttr.v` |
| reference-returning declarations in `*.h` | `Refs.v` | `SpecRefs.v` | C57 `PropPy.v` |
| `options.{h,cc}` | `Options.v` | `SpecDyn.v` | C56 `PropOptions.v` |
| `apps/opspace/src/main.cc` | `App.v` | `SpecApp.v`, `SpecAppTask.v` | C63 `PropApp.v`, `PropAppTask.v` |
| `python/spatial_dyn.cc` (controller), called repeatedly | `Control.v` | `SpecLoop.v` | C64 `PropLoop.v` |
| `python/spatial_dyn.cc` (nullspace arrays, hessian, integrate, functions taking q) | `PyFuns.v` | `SpecPy.v` | C65 `PropPyFuns.v` |
| `simulation.cc` with the two controllers, called repeatedly | `Sim.v`, `Control.v`, `JointControl.v` | `SpecHold.v` | C58 `PropHold.v`, `PropHoldAba.v` |

## 3. How each property is proved

| id | method |
|----|--------|
| C01, C02 | invariant `tree_ok` by induction over histories |
| C03, C04, C47 | invariant "flag set => array satisfies its recurrence", uniqueness of the recurrence's solution by strong induction |
| C05, C14 | recursion split: RNEA's accelerations are sums of inertial, Coriolis and gravity parts; the backward pass is additive; a CRBA column is RNEA of a unit acceleration; in world coordinates (`WorldProofs.v`) |
| C06, C20–C22, C31, C33, C35, C37, C38, C41, C43, C45, C46, C50, C54, C55 | defects: universal characterisation where possible and a concrete witness computed in `QcScal` / `SpecFloat` |
| C07, C08 | recurrence vs. path product |
| C09, C15, C23, C42 | `RScal` + Coquelicot `is_derive`, induction along the path |
| C10, C11 | componentwise `ring`/`field` |
| C12, C13, C16 | backward accumulation = sum over the subtree in world coordinates |
| C17, C52, C56 | from C14 and the specification of the linear solver |
| C18, C19, C40 | the recursion solves the Newton-Euler equations link by link |
| C24, C28, C39 | case analysis over the reals |
| C25 | invariant over setter lists; NaN counterexample in `SpecFloat` |
| C26 | componentwise, induction over the tree |
| C27 | finite case analysis plus case folding over all strings |
| C29 | loads enter only through `link inertia + load` |
| C30 | copy/move as state functions incl. null cache; simulation between robots that differ in the base inertia |
| C32 | value trees, decode after encode |
| C34 | link table, depth-first order, invariant of the merge loop (poses and total inertia kept) |
| C36, C44 | matrices of any size as functions, pseudo-inverse as a specified oracle |
| C48, C49 | invariant over sequences of integration steps; recursion reversed; the quasi-Newton step is exact where the inertia matrix is constant |
| C53 | invariant along the loop over the columns: the robot is the given one moved to the last column, caches sound |
| C55 | the invariant of C03 with edits allowed while no flag is set; answers whose flag is set survive edits and queries |
| C57 | any preorder on caches closed under the primitive cache writes contains every query; instances: each array is kept while its flag is set |
| C58 | accelerations vanish at rest in balance, so every stage of every integration method leaves the state; induction over steps and calls |
| C59 | the articulated-body recursion under a unit force (velocity terms, gravity) solves A x = J' e; uniqueness of the solution and of the Moore-Penrose inverse |
| C60 | while slipping, friction is a vector that does not depend on the acceleration; energy rate from C23; articulated inertias of solid links are positive definite (Schur complement, leaves to root); friction in the articulated-body recursion is the difference of the torques it applies, the bias forces of both recursions agree (leaves to root) |
| C61 | poses along the tree, world-frame sums of `WorldProofs.v` reindexed by the renumbering, uniqueness of the solution of A x = b |
| C62 | partial derivative of each link's velocity by induction along the tree; kinetic energy and momenta as sums over links; potential part from C15 |
| C63 | one iteration as a program of queries followed by a discrete step; cache invariants kept by the discrete step; induction over iterations; C09, C16, C48, C49 for the values; the loop's robot differs only in its cache from one of a history, then C36 for the task |
| C64 | two robots with different caches run in lock step (`TwinProofs.v`); each simulated step is that of C28; induction over calls |
| C65 | memory as a function from addresses; writing back through distinct addresses; induction over tasks, a full identity matrix acting as an empty one; C36, C07, C08 for the values; witness for arrays of another type |
| C66 | C44's task acceleration read row by row as a vector in the world; rotations undone by their transposes |
| C67 | induction over programs: a name bound to a window stays equal to the attribute; after copies are assigned back the robot differs at most in its cache, then C03-C05 |
| C68 | the status is zero exactly when no test is met (bits below 64); at rest the velocity test is met (C44); the step is that of C64 |
| C69 | the first iteration reaches the missing name (kinematic queries of a well-formed robot succeed) |
| C70 | simulation between addresses and robot numbers, induction over programs; an allocator that never reuses for the converse |
| C71 | isometry laws; the transforms of C07; induction over the links for Map |
| C72 | refinement from storage to link numbers, induction over programs, for any growth of the storage |
| C73 | the tree functions of C01 and C07 before and after; the sums of C12 and C15 with one more term (`PropGrow.v`) |
| C51 | two robots with different caches run in lock step (`TwinProofs.v`); induction over iterations |

## 4. Trusted base

* Coq's kernel (and `vm_compute` for the concrete examples).
* The reading of the code recorded in the comments: every model definition cites file
  and lines and says where it simplifies.
* External code, by oracles (section variables or record fields; theorems hold for
  all of them, hypotheses about them are stated in the theorems):
  * `solve` – Eigen `LDLT` factorisation and solve; `solver_ok` says it solves.
  * `pinv` – `ctrl_utils::PseudoInverse`, matrix and rank flag.
  * `ktrunc`, `ksin`, `kcos`, `ksqrt` of the scalar record.
  * `ctrl_utils::PdControl`, `NearQuaternion`, `ctrlutils.pd_control` – fields of
    `controller`, `ik_goal`, arguments `pd`, `pd_pos`, `pd_ori`, `pd_joint`.
  * `log6`, `dlog6`, norm of `ctrl_utils` – arguments of the discrete dynamics.
  * `enc_iso`/`dec_iso`/`near`, `finite`, `utf8` – conversion of placements and
    numbers to JSON; `to_k`, `to_bound`, `decode`, `normalized`, `join` – attribute
    readers of the URDF loader.
* External code, by its documented meaning: Eigen fixed-size products and
  `Isometry3d::inverse` (transpose), `ctrl_utils::Signum`, `DoubleCrossMatrix`;
  tinyxml2, nlohmann::json and yaml-cpp documents are value trees; MATLAB arrays are
  dimensions and contents, converting between types throws; pybind11 moves
  returned objects (this matters for C46) and hands out the elements of a vector
  property by reference (C55); it passes numpy arrays of doubles without copying and
  others as converted copies (C65); the getter of a property returning a reference to
  an Eigen vector gives a read-only window on it (C67).
* Axioms, as printed by `Print Assumptions` under each theorem (all from Coq's
  standard library):

<!-- axioms begin -->
* closed under the global context (278):
  C01_tree, C02_add, C02_set_q, C02_set_dq, C03_pose, C03_jacobian, C03_jacobian_doubles, C03_doubles, C04_dynamics, C05_cache_independent, C06_world_stale, C06_gravity_stale, C06_jacobian_stale, C06_refuted, C07_world, C07_explicit, C07_index, C07_range, C08_overloads, C08_sparsity, C08_halves, C10_points, C10_push, C10_compose, C10_identity, C10_inverse, C10_power, C10_cross, C10_dual, C10_jacobi, C10_cross_textbook, C10_translation, C11_momentum, C11_matrix, C11_energy_symmetric, C11_transform, C11_add, C11_matrix_transform, C11_flat, C12_inertia, C14_decomposition, C15_weights, C16_external, C17_inverse, C18_aba, C18_agrees, C18_fresh, C19_chain, C19_related, C20_uninitialised, C21_base_frame, C21_refuted, C22_history, C25_rejected, C25_subspace, C25_nan_refuted, C26_joint, C26_robot, C27_joint_roundtrip, C27_joint_parse, C27_geometry_roundtrip, C27_geometry_parse, C29_absorbed, C29_absorbed_warm, C29_stray, C29_table, C30_copy, C30_assign, C30_move, C30_moved_from, C30_base_inertia_refuted, C31_T_to_world_q, C31_CartesianPose_q, C31_T_from_world_q, C32_roundtrip, C32_joint, C32_joint_built, C32_pickle, C32_infinite, C32_default_limits, C32_pickle_refuted, C33_yaml, C33_yaml_refuted, C34_reading, C34_document, C34_order, C34_accepts, C34_assembles, C34_doubles, C34_links, C34_poses, C34_bodies, C34_mass, C35_inertia, C35_inertia_refuted, C35_missing_child, C35_rootless, C36_inverses, C36_projected, C36_stack, C37_fresh_lambda, C37_fresh_one, C37_stale, C37_refuted, C38_coriolis, C38_coriolis_refuted, C38_friction, C38_friction_refuted, C40_directions, C40_columns, C41_undefined, C43_sum, C43_inertia, C43_undefined, C43_undefined_joint, C43_singular, C44_status, C44_total, C44_task, C44_boolean, C44_defaults, C45_ignored, C45_poison, C46_empty_name, C46_material, C46_weightless, C46_dropped, C46_fixed, C46_unknown_type, C46_python, C47_fresh, C47_steps, C47_impulses, C48_recurrence, C49_reversal, C49_rest, C49_balance, C49_sliding, C49_sliding_converges, C50_loads_ignored, C50_loads_refuted, C50_memory_refuted, C50_query_forgets, C50_query_refuted, C50_unconverged_refuted, C50_no_iterations_refuted, C50_velocity_refuted, C51_steps, C51_result, C51_total, C51_at_goal, C51_fresh, C51_unreachable, C51_second_robot, C51_link_refuted, C52_torques, C52_total, C52_fresh, C52_achieves, C52_motion, C52_step_refuted, C53_gravity, C53_inertia, C53_hessian, C53_coriolis, C53_inverse_dynamics, C53_velocity_derivative, C53_position, C53_jacobian, C53_jacobian_dynamic_inverse, C53_discrete, C53_stored, C53_rows, C54_ik_undefined, C54_ik_guess, C54_ik_orientation, C54_coriolis_stored, C54_coriolis_columns, C54_jbar_link, C54_jbar_stored, C54_position_derivative, C55_assign, C55_edits_first, C55_edits_first_jacobian, C55_set_q_repairs, C55_set_q_repairs_jacobian, C55_stale, C55_refuted, C55_inverse_dynamics_refuted, C55_mass_unchecked, C55_pickled_inertia, C56_defaults, C56_at_rest, C56_converted, C56_refuted, C57_answer, C57_kept, C57_outdated, C57_overwritten_refuted, C58_balance, C58_opspace, C58_joint, C58_balance_aba, C59_inertia_inverse, C59_inertia, C59_coriolis, C59_gravity, C59_offset_refuted, C59_external_refuted, C60_forward, C60_round_trip_refuted, C60_aba_refuted, C61_poses, C61_jacobian, C61_terms, C61_inverse, C61_forward, C61_forward_aba, C63_start, C63_fresh, C63_motion, C63_click, C63_elsewhere, C63_minus_one, C63_hold, C63_torque, C63_commanded, C64_fresh, C65_nullspace, C65_shape, C65_stack, C65_priority, C65_converted, C65_priority_refuted, C65_hessian, C65_integrate, C65_q, C65_pose, C66_plain, C66_frame, C66_away, C67_follow, C67_unrestored, C67_goal, C67_dangling, C67_copied, C67_refused, C67_restore, C67_restore_dynamics, C68_stops, C68_continues, C69_nothing, C69_either, C70_meant, C70_misuse, C70_leak, C70_copies, C70_stale_refuted, C71_world, C71_parent, C71_between, C71_range, C71_fresh, C71_scaled_refuted, C71_map, C71_map_throws, C72_meant, C72_build_first, C72_room, C72_dangling, C72_eventually, C73_state, C73_pose, C73_jacobian, C73_gravity, C73_inertia, C73_external, C73_load_first
* uses `ClassicalDedekindReals.sig_forall_dec`, `FunctionalExtensionality.functional_extensionality_dep` (1):
  C38_link0
* uses `ClassicalDedekindReals.sig_forall_dec`, `ClassicalDedekindReals.sig_not_dec`, `FunctionalExtensionality.functional_extensionality_dep` (43):
  C09_motion, C09_columns, C13_definite, C15_potential, C18_solid, C19_solid, C23_kinetic, C23_total, C24_friction, C24_short_torque, C24_stiction_drives, C25_limits, C25_accepts, C26_one_parameter, C28_limits_any, C28_formulas_any, C28_constant, C28_limits, C28_formulas, C35_axis, C35_directions, C35_axis_refuted, C39_clipping, C41_roots, C42_hessian, C42_angular_refuted, C44_within, C51_tolerance, C52_arrived, C58_stiction, C58_stiction_aba, C60_slipping, C60_slipping_aba, C60_sticks, C60_energy, C60_friction_aba, C60_sticks_aba, C62_lagrange, C62_root, C63_spring, C63_keys, C64_motion, C68_short
* uses `ClassicalDedekindReals.sig_forall_dec`, `ClassicalDedekindReals.sig_not_dec`, `Classical_Prop.classic`, `FunctionalExtensionality.functional_extensionality_dep` (4):
  C23_conserved_aba, C23_conserved, C60_dissipates, C62_conserved
<!-- axioms end -->

## 5. Not modelled

* Rounding error bounds; strength-2/3 theorems are about exact arithmetic.
* `JointLimitImpulse` (qpOASES, only under `#ifdef JOINT_LIMITS`, off by default).
* Text-level parsing (XML/JSON/YAML lexing), file access, Redis itself (for
  the two simulator applications, what Redis returns in an iteration is an input; the web
  pages are not modelled), the MATLAB language itself, pybind glue other than what is named above.
* `int` overflow of link counts. Objects are values: outside C57 a returned `const&` is the
  value at the time of the call, and copies cannot alias (C30).
* Threads: histories are sequential.
