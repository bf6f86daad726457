# Formal model of libdwbc (saga0619/libdwbc, pinned commit in /repo)

All proofs are in `rocq/theories` (Rocq/Coq 8.16.1 with mathcomp; a few files use Coquelicot for derivatives).  Nothing in
/repo is built or run; the C++ text is the only source of the model.

## 1. How the code is modelled

**Numbers.**  `double` is exact: an arbitrary ordered field (`realFieldType`) for linear algebra, a real closed field where
square roots occur, Coq's `R` where calculus or trigonometry occur.  Rounding and overflow are not modelled.  In the
two-foot redistribution (`Redis`) infinities and NaN are values of the model; the sign of a zero divisor is a parameter.

**Undefined behaviour** is a distinct outcome, `None`: an index outside a `std::vector`, an Eigen block outside its
matrix, a product, sum or assignment of mismatched sizes, `inverse()` of a singular matrix, a failed `assert`, the read of
a member that was never written.  Statements "the call is defined" are statements that the outcome is not `None`.

**Matrices** whose sizes the code fixes are mathcomp matrices of arbitrary dimension.  Matrices the code builds block by block
are values `DM rows cols entries` (`DMat.v`) with checked block reads and writes; `DMatL.v` relates the two.

**State machines.**  Registries (contacts, tasks, links), the QP wrapper, the link tree and the HQP levels are records with
one function per member function; properties of histories are by induction on the list of calls.

**External code** is never assumed to be more than stated:

* RBDL kinematics and mass matrix: arbitrary matrices, with the properties needed (symmetric positive definite, base
  carries the links rigidly, ...) as hypotheses.  `AddBody`, `Join`, `SetBodyTransform` and the name map in `Tree`: from RBDL's documentation.
* `inverse()`, `llt().solve(I)`: the inverse, if there is one.
* `CompleteOrthogonalDecomposition::pseudoInverse()`: the Moore-Penrose inverse (constructed, existence and uniqueness proved
  in `LinAlg.v`); the numerical rank is the exact rank, except in `Cod`.  `householderQ` rows past the rank: any basis of the left null space.
* qpOASES and OSQP: arbitrary functions from the problem (and the call number) to an answer or a failure.  A theorem says
  whether it assumes answers to be feasible, optimal, or to be found when they exist.  The state OsqpEigen's solver
  object keeps between calls is modelled in `OSQ` only, elsewhere a call solves the problem it is given; `nWSR` is an in/out argument as documented.
* `getNullSpace` of the HQP: returns a basis of the kernel (satisfied by Gaussian elimination, shown in `HQP_Ex.v`).
* Eigen's quaternion, angle-axis and slerp: from the published algorithm.

**Structure of the files.**  `X_Model.v` holds definitions only, each citing the lines of /repo it models.  `X_Spec.v` is the
vocabulary of the theorems, independent of the model's helpers (admissible motion, cone, priority, ...).  `X_Proofs.v` etc. are lemmas,
`X_Props.v` the property theorems (prefix = property id), each with a non-trivial `Example` meeting its
hypotheses and `Print Assumptions`.  A property that is false of the model stays in `properties.jsonl` and is answered by a theorem
`..._refuted`, next to the strongest true variant (`..._partial`).

**Seeded errors.**  `seeded/LOG.jsonl` records edits of the model as realistic bugs would make them, the theorems that
failed, and the theorems that were tightened because they did not.

## 2. What is modelled

| files | code |
|---|---|
| `LinAlg`, `DMat`, `DMatL` | no code: pseudo-inverse, positive definite matrices, checked block matrices |
| `Con` | src/dwbc.cpp AddContactConstraint, ClearContactConstraint, UpdateContactConstraint; include/dwbc.h SetContact; src/contact_constraint.cpp constructors |
| `Task` | AddTaskSpace (3), AddTaskLink (2), ClearTaskSpace, SetTaskSpace, UpdateTaskSpace; src/task.cpp constructors and row tiling |
| `Dyn` | src/wbd.cpp CalculateContactConstraint, CalculateGravityCompensation, CalculateJKT, CalculateTaskNullSpace, contact force; dwbc.cpp CalcContactConstraint, CalcTaskSpace, CalcTaskControlTorque(hqp = false) |
| `Cone` | GetZMPConstMatrix, GetForceConstMatrix, getContactConstraintMatrix, getZMP |
| `QP` | CalcSingleTaskTorqueWithQP (and 2), CalcTaskControlTorque(hqp = true), CalcContactRedistribute(hqp = true) |
| `Redis` | ContactRedistributetwomod, CalcContactRedistribute(hqp = false) |
| `HQP`, `HQP_First` | src/dwbc_hqp.cpp: levels, setters, normalizeConstraintMatrix, prepare, solveSequentialSingle, solveSequential, solvefirst |
| `QPW` | src/qp_wrapper.cpp CQuadraticProgram |
| `Spline`, `Rot`, `Filter`, `Geo` | src/math.cpp; src/link.cpp calc2lpf; skew |
| `Inr` | src/link.cpp AddLink, GetSpatialInertiaMatrix, GetSpatialTranform, GetAdjointMatrix; math.cpp InertiaMatrixSegment; dwbc.cpp CalcCOMInertia, CalcVirtualInertia, CalcAngularMomentumMatrix |
| `Tree` | InitModelData, DeleteLink, AddLink, ChangeLinkToFixedJoint, InitAfterModelMod, SetTorqueLimit, the joint frames recorded by UpdateKinematics (src/dwbc.cpp:313-318), AddLink with JOINT_6DOF (`Tree_Six`; RBDL's chain of massless bodies is from its documentation) |
| `Kin` | UpdateKinematics, UpdatePos of links; RBDL's results are an argument |
| `Copy` | CopyKinematicsData |
| `PD` | trajectories, gains and the PD reference of task links; the arguments UpdateTaskSpace passes |
| `Thr` | CalcTaskSpaceTorqueHQPWithThreaded |
| `Red` | ReducedDynamicsCalculate (index lists), task classification of ReducedCalcTaskSpace |
| `RedM` | ReducedDynamicsCalculate (matrices), ReducedCalcContactConstraint, ReducedCalcGravCompensation |
| `RedR` | CalcContactRedistributeR(hqp = true) |
| `RedC` | CalcContactRedistributeR(hqp = false) |
| `RTq` | ReducedCalcTaskControlTorque, CalcSingleTaskTorqueWithQP_R, CalcSingleTaskTorqueWithQP_R_NC |
| `RTS` | ReducedCalcTaskSpace, CalcJKT_R, CalcNullMatrix_R, CalculateJKT_R |
| `LQP` | ConfigureLQP, CalcControlTorqueLQP, ConfigureLQP_R, CalcControlTorqueLQP_R |
| `LNC` | ConfigureLQP_R_NC, CalcControlTorqueLQP_R_NC |
| `Jacc` | CalcSingleTaskTorqueWithJACC_QP, ..._QP_R, ..._QP_R_NC and the level loop of tests/sp_test/dof_comparison_jacc.cpp |
| `Brg` | the Python bridge (src/pybind/rl_wbc_bridge.cpp); RBDL and the factorisation of W are arguments |
| `Chg` | getLinkID, ChangeLinkInertia, CalcVirtualCMM (src/dwbc.cpp); with `Inr` and `Kin`, replacing a locked sub-tree by one body. RBDL's createFromMassComInertiaC is defined from its documentation |
| `Vmd` | InitModelWithLinkJoint (src/dwbc.cpp), Joint::ToRBDLJoint, Link::ToRBDLBody, UpdateJac, GetPointJac, GetPointPos, GetJacDot (src/link.cpp). RBDL's AddBody, X_T and CalcPointJacobian6D are defined from its documentation; Jacobians for joints of one degree of freedom |
| `Bin` | write_binary, check_binary (include/dwbc_util.h) on IEEE doubles (stdlib SpecFloat). The order in which norm() sums is a parameter; a file is the matrix last written under its name |
| `CCo` | ContactConstraint: constructor, SetContact, EnableContact, DisableContact, SetFrictionRatio, the constraint matrices (src/contact_constraint.cpp) |
| `Cod` | PinvCOD, PinvCODWB, getNullSpace and HQP::prepare on top of Eigen's complete orthogonal decomposition (src/wbd.cpp:5-53, src/math.cpp:23-53, 349-361). Eigen's pivoted QR and its row reduction are oracles with the documented properties; Cod_Exist proves such oracles exist for all matrices over a real closed field |
| `Llt` | A_inv_ by Cholesky factorisation (src/dwbc.cpp:307, 2958): Eigen's unblocked algorithm column by column, abandoned at the first non-positive pivot, and the solve that does not look at info(). Exact arithmetic over a real closed field |
| `Quat` | GetQuat, Rot2Quat (src/link.cpp:121-124, src/math.cpp:323-328): Eigen's conversion of a rotation matrix. Exact arithmetic over a real closed field |
| `QPO` | the options of CQuadraticProgram (src/qp_wrapper.cpp:158-168, 226-240, 315-319) on top of `QPW`; setToMPC and setToReliable as in the qpOASES sources |
| `HQS` | HQP_Hierarch::solve (src/dwbc_hqp.cpp:633-656) and the bounds qp_lb_, qp_ub_ (237-250, 312-331) on top of `HQP` |
| `OSQ` | the OsqpEigen::Solver object of a level and the calls of solveOSQP on it (src/dwbc_hqp.cpp:475, 583-631) on top of `HQP`; the behaviour of OsqpEigen is as documented: set* of a matrix and initSolver refuse when already done, update* replace; changes of the sparsity pattern are taken to be handled by OsqpEigen |

Simplifications are stated in the header of each model file.  Those that bear on the reading of a theorem:

* `abs` in wbd.cpp is the overload for double.
* `Kin`: joint_[i].parent_rotation_/translation_ are left out.
* `Copy`: the two robots are distinct objects; uninitialised flags are a value.
* `RedR`: the contact type is read off contact_dof_; hqp = true (the branch hqp = false is `RedC`).
* `LQP`: `variable_size_` is the number of columns of `B_`; `A_.norm() = 0` (NaN in the code) is undefined.
* `LNC`: `initialize` sets the variable count and the cost sizes; timers left out.
* `Jacc`: a negative `heirarchy_` is not modelled.  C111 is for a base aligned with the world.
* `Brg`: numpy arrays are one-dimensional arrays of double; the command is not rounded to float.
* `RTq`, `RTS`: `heirarchy_` is the position in `ts_`; calc_task_space / update_task_space = false.  C118-C120: the base
  Jacobian is (1, rot) and a COM Jacobian is made of the first six rows of the mass matrix.

Not modelled:

* URDF parsing (LoadModelData around InitModelData), timers, printing (Link::Print, printLinkInfo, the Print functions
  of CQuadraticProgram), tests and simulators;
* constructors and destructors that only set defaults, functions with an empty body (CalculateLQ, HQP::solveWeighted,
  HQP_Hierarch::initOSQP, RlWBCBridge::reflectAction, GetControlTorque) and one-line wrappers around a modelled function
  (TaskSpace::Update, CalcJKT, CalcNullMatrix, CalcGravCompensation(VectorXd &), Link::GetSpatialTranform,
  CalculateJKTonly, Threadtester, bool_cast);
* the build with COMPILE_QPSWIFT (qpSwiftSolve, src/dwbc.cpp:7-73, 1059-1063, 1525-1530).  Its class TaskSpaceQP
  (include/dwbc.h:21-31) calls constructors of TaskSpace that do not exist, and include/dwbc_hqp.h uses
  CQuadraticProgram, whose definition (src/qp_wrapper.cpp) that build leaves out.


## 3. Properties

Status: *proved*, or *partial* (the part proved carries the suffix `_partial`; `_refuted` theorems give a witness that the full
statement is false of the model).  The line under a heading says what the proofs rest on.

### `Con`

List state machine; invariants by induction over call histories, uninitialised members explicit.

* **C01** (proved) Contact activation keeps the contact sizes in step with the registered contacts.  `C01_accepted`, `C01_defined`, `C01_rejected`, `C01_contact_sizes` (Con_Props).
* **C02** (proved) A link never carries two contact constraints and name lookup is exact.  `C02_one_contact_per_link`, `C02_add_by_name`, `C02_add_by_index` (Con_Props).
* **C06** (proved) Contact Jacobian stacks exactly the active contacts in order.  `C06_contact_jacobian` (Con_Props).
* **C61** (partial) A rejected SetContact is harmless whenever it is made.  `C61_rejected_call_refuted` (Con_Props).  False of the code: a rejected SetContact after a further AddContactConstraint reads the uninitialised `contact` flag of the new entry. The defined case is C01_rejected.

### `Task`

As `Con`; the row tiling by induction over the links of a task.

* **C03** (proved) Task registry: one solver per task, dense hierarchy numbers, no link in two tasks.  `C03_registry`, `C03_rejected`, `C03_added_link`, `C03_added_task` (Task_Props).
* **C04** (proved) Task dimension equals the sum of the dimensions of its links.  `C04_task_dimension` (Task_Props).
* **C05** (proved) Task Jacobian rows of different links never overlap and cover the task.  `C05_task_jacobian`, `C05_defined` (Task_Props).
* **C07** (partial) SetTaskSpace rejects an out-of-range priority.  `C07_out_of_range_refuted`, `C07_in_range_partial` (Task_Props).  False of the code for every priority that does not exist: ts_[heirarchy] is read before the range test. The effect for existing priorities is proved.
* **C62** (partial) SetTaskSpace refuses a reference of the wrong size.  `C62_wrong_size_refuted` (Task_Props).  False of the code for every task and every reference of another size.
* **C63** (partial) AddTaskSpace gives the task the priority asked for.  `C63_priority_ignored_refuted`, `C63_by_name_partial` (Task_Props).  False for the overloads taking a link index or a dimension (the priority is ignored). Proved for the overload taking a link name.
* **C64** (partial) AddTaskSpace refuses a link index outside the robot.  `C64_bad_link_index_refuted` (Task_Props).  False of the code for every unused out-of-range index.
* **C172** (partial) A custom task keeps the Jacobian given with SetTaskSpace.  `C172_custom_refuted`, `C172_links_lost_partial`, `C172_no_links_partial` (Task_Custom).  False when the custom task has a link: UpdateTaskSpace zeroes J_task_ of every task with links and fills no block of a custom one, so the Jacobian becomes zero while the reference is kept. True of tasks without links, over any number of updates.
* **C173** (partial) Adding a link to a task leaves the rest of the task as it was.  `C173_reference_refuted`, `C173_rest_partial`, `C173_by_name_partial` (Task_AddLink).  False of the reference: AddTaskLink sets all of f_star_ to zero, so a reference given with SetTaskSpace before is lost. Everything else is as stated: every other field of the task and every other task is unchanged, and a link that is already used changes nothing.

### `Cone`

Checked block writes; entry-by-entry reading of the assembled matrix against the cone inequalities.

* **C08** (proved) The contact constraint matrix is exactly the friction/ZMP/yaw cone of every active contact.  `C08_constraint_matrix_is_cone` (Cone_Props).
* **C09** (proved) A force accepted by the constraint matrix has its centre of pressure inside the plate.  `C09_cop_inside_plate` (Cone_Props).
* **C10** (partial) Point and line contacts can be used.  `C10_constraint_matrix_refuted`, `C10_point_contact_undefined`, `C10_line_contact_undefined`, `C10_plane_contacts_partial` (Con_Props, Cone_Props).  False of the code: activating a point or line contact reads a row block of the Jacobian that does not exist, and a last active contact of fewer than six degrees of freedom makes the constraint matrix write out of range. Proved for plane contacts.
* **C11** (partial) getZMP is the force-weighted average of the contact centres of pressure.  `C11_zmp_index_refuted`, `C11_zmp_average_partial` (Cone_Props).  False of the code when an inactive contact is registered before an active one (out-of-range read). Proved when the active contacts come first.

### `Dyn`

Matrix identities over an ordered field; positive definiteness of A and full row rank of the contact Jacobian are the hypotheses.

* **C12** (proved) Computed contact force and acceleration solve the constrained equation of motion, uniquely.  `C12_contact_force_solves_motion` (Dyn_Props).
* **C13** (proved) The contact projector is a projector onto admissible motions.  `C13_contact_projector` (Dyn_Props).
* **C14** (proved) Gravity compensation holds the robot still.  `C14_gravity_compensation_still` (Dyn_Props).
* **C15** (proved) Gravity torque is the least-norm torque that holds the joints still.  `C15_gravity_torque_least_norm` (Dyn_Props).
* **C16** (proved) Contact null-space dimension: CalcContactConstraint succeeds on well-posed contacts.  `C16_contact_null_dimension` (Dyn_Props).  The inverted matrix is invertible iff the base block of the last six contact rows is.
* **C17** (proved) Contact null-space torques change only internal contact forces, by exactly the requested amount.  `C17_null_torque_changes_internal_force_only`, `C17_null_basis_irrelevant` (Dyn_Props).
* **C18** (proved) A task torque realises exactly the commanded task acceleration.  `C18_task_acceleration` (Dyn_Props).
* **C19** (proved) Lower-priority torques never disturb the top-priority task.  `C19_top_priority_undisturbed`, `C19_top_priority_undisturbed_any_reference` (Dyn_Props).
* **C20** (partial) Strict priority between every pair of levels.  `C20_strict_priority_refuted`, `C20_decoupled_levels_partial` (Dyn_Props).  False of the code: refuted with a three-task witness. The decoupled case is proved.
* **C21** (proved) The task Jacobian inverse is dynamically consistent.  `C21_task_inverse_consistent` (Dyn_Props).

### `QP`

The assembled QP read as inequalities on torque and contact force; loop by induction with an invariant on the accumulated torque.

* **C22** (proved) A task torque accepted by the level QP respects torque limits and contact constraints.  `C22_feasible_iff_admissible`, `C22_success_is_admissible` (QP_Props).
* **C23** (proved) The QP does not alter a task that is already admissible.  `C23_least_modification` (QP_Props).
* **C24** (proved) The hierarchical loop ends with an admissible total torque.  `C24_hierarchy_admissible`, `C24_torque_left_behind` (QP_Props).
* **C25** (proved) Contact redistribution by QP keeps limits, cone and task accelerations.  `C25_redistribution_admissible`, `C25_acceleration_unchanged`, `C25_no_redundancy` (QP_Props).
* **C26** (partial) Failed redistribution leaves the last admissible command in place.  `C26_failure_changes_command_refuted` (QP_Props).  False of the code: a failed redistribution QP zeroes torque_contact_, so every failure with a non-zero torque_contact_ changes the command.
* **C65** (partial) Hierarchical QP control works in single support.  `C65_single_support_refuted` (QP_Props).  False of the code: NwJw stays model_dof x model_dof while contact_qp_ is empty.

### `Redis`

Case analysis over extended numbers (finite, infinities, NaN) in a real closed field.

* **C27** (proved) Two-foot redistribution preserves the net wrench and keeps the split in range.  `C27_net_wrench_preserved` (Redis_Props).
* **C28** (partial) Two-foot redistribution actually produces the redistributed foot force.  `C28_force_produced_partial`, `C28_defined_iff`, `C28_second_call_undoes_refuted`, `C28_stale_contact_torque_refuted` (Redis_Props).  Holds when torque_contact_ is zero on entry (C28_force_produced_partial). False otherwise: the input torque includes torque_contact_ but the result overwrites it, so a second call takes the redistribution back.
* **C66** (proved) Two-foot redistribution meets the foot limits whenever a split can.  `C66_limits_met_when_possible` (Redis_Props).
* **C67** (partial) Two-foot redistribution always returns numbers.  `C67_defined_iff`, `C67_tandem_stance_refuted` (Redis_Props).  False of the code: 0/0 exactly when the net moment about both feet has no x component (C67_defined_iff).
* **C68** (partial) Two-foot redistribution uses the positions of the two active feet.  `C68_active_feet_refuted` (Redis_Props).  False of the code: cc_[0] and cc_[1] are used whatever their activation.
* **C69** (partial) Two-foot redistribution works in the heading frame of the base.  `C69_heading_frame_refuted` (Redis_Props).  False of the code: rpy = eulerAngles(2,1,0) puts yaw in rpy(0), the redistribution removes rpy(2).

### `HQP`

Induction over levels; the answer of each level is the previous one plus a null-space step.

* **C29** (proved) Hierarchical null-space bases annihilate all higher equality levels.  `C29_null_space_bases` (HQP_Props).  getNullSpace assumed to return a kernel basis (null_space_ok); shown satisfiable by Gaussian elimination
* **C30** (proved) Solving a lower level never changes the equality residual of a higher one.  `C30_residuals_kept`, `C30_defined` (HQP_Props).  for any number of levels and any solver answers
* **C31** (partial) Lower levels keep higher-level inequalities up to their accepted slack.  `C31_inequalities_kept_partial`, `C31_inequalities_kept_exact`, `C31_recursive_feasibility`, `C31_dropped_entry_refuted` (HQP_Props).  as stated it is false: sparseView(1E-5) drops coefficients up to 1e-17 before the problem reaches OSQP. Proved: with an error bound of 1e-17 * |u|_1, exactly when nothing is dropped, and recursive feasibility
* **C32** (proved) Each level's QP is the right least-squares problem.  `C32_level_optimal`, `C32_setters_store` (HQP_First, HQP_Props).  includes the additional quadratic cost when H is symmetric; assumes no coefficient is dropped by sparseView
* **C33** (proved) Row normalisation does not change the constraints.  `C33_normalisation` (HQP_Props).  over real closed fields (square roots)
* **C70** (partial) The cost vector given to updateCostMatrix takes part in the optimisation.  `C70_cost_vector_ignored_refuted` (HQP_Props).  false of the code: g_ is stored and never read
* **C71** (partial) Constraint weights given to updateConstraintWeight take part in the optimisation.  `C71_weights_ignored_refuted`, `C71_first_level_weighted` (HQP_First, HQP_Props).  false of the code: V_ and W_ are ignored by solveSequential; the separate entry point solvefirst does use the weights of level 0 (C71_first_level_weighted)
* **C72** (partial) Re-solving with init = false solves the problem of the current matrices.  `C72_resolve_same_problem`, `C72_solve_leaves_ready`, `C72_null_space_changed_refuted` (HQP_Props).  proved while the null-space sizes stay; if one grows the block writes go out of range

### `QPW`

State machine over an adversarial solver; invariants over every call sequence.

* **C34** (partial) QP wrapper: every solve uses exactly the data last supplied, hot-starting only on an initialised problem.  `C34_data_partial`, `C34_defined`, `C34_hotstart_after_init`, `C34_result`, `C34_cycle`, `C34_upper_bound_only_refuted`, `C34_hotstart_after_failure_refuted` (QPW_Props).  proved for every call sequence without UpdateSubjectToAxUb (the library never calls it) and for the library usage pattern; with it the lower bound is an unwritten array; after a failed initialisation the next solve hot-starts
* **C73** (partial) The fallback solve gets ten times the iteration budget.  `C73_retry_budget_refuted` (QPW_Props).  false of the code: the budget is ten times the iterations already performed

### `Spline`

Polynomial identities and derivatives over R.

* **C35** (proved) Quintic spline meets its boundary conditions and its velocity/acceleration are derivatives.  `C35_quintic` (Spline_Props).
* **C36** (proved) Rest-to-rest quintic motion is monotone and stays between its end points.  `C36_rest_to_rest` (Spline_Props).
* **C37** (proved) Cubic interpolation meets its boundary conditions; rest-to-rest is monotone and in range.  `C37_cubic` (Spline_Props).

### `Rot`

Trigonometric identities and 3x3 algebra over R.

* **C38** (proved) Elementary rotations are rotations and compose additively.  `C38_elementary`, `C38_about_axis` (Rot_Props).
* **C39** (proved) rotationCubic interpolates between rotations.  `C39_rotation`, `C39_interpolates` (Rot_Props).
* **C40** (partial) Orientation error is zero at the target, odd, and proportional to the rotation axis.  `C40_zero_odd_axis_partial`, `C40_zero_set_partial`, `C40_vanishes_only_at_target_refuted` (Rot_Props).  everything holds except the last clause: the error also vanishes at half turns; its zero set is characterised exactly
* **C74** (partial) AxisTransform2V maps one direction onto the other by a rotation.  `C74_axis_transform_partial`, `C74_opposite_refuted` (Rot_Props).  proved for vectors that are not opposite; for opposite vectors the result is minus the identity

### `Geo`

Ring identities.

* **C41** (proved) skew is the cross-product matrix.  `C41_skew_is_cross_product` (Geo_Props).

### `Inr`

Field identities with explicit non-zero masses; sums over lists of links.

* **C42** (proved) Merging links preserves mass, first moment and inertia.  `C42_merge` (Inr_Props).
* **C43** (proved) Spatial inertia matrix and its decomposition are inverse to each other.  `C43_segment`, `C43_orderings` (Inr_Props).
* **C44** (proved) Composite centre of mass decouples the centroidal inertia.  `C44_com_inertia` (Inr_Props).
* **C45** (proved) Virtual inertia of a sub-tree equals the merged rigid body.  `C45_virtual_inertia` (Inr_Props).
* **C46** (proved) Centroidal momentum matrix gives total angular momentum about the COM.  `C46_angular_momentum`, `C46_six_rows`, `C46_link_com`, `C46_linear_momentum` (Inr_Props).
* **C168** (proved) The link transforms carry twists and wrenches between frames.  `C168_twist`, `C168_wrench`, `C168_power`, `C168_compose`, `C168_inverse`, `C168_momentum` (Inr_Adj).  Exact arithmetic.

### `Filter`

Linear recurrences over R; Jury conditions for the poles.

* **C47** (proved) The second-order low-pass filter has unit DC gain and is stable.  `C47_unit_gain`, `C47_linear`, `C47_poles`, `C47_converges` (Filter_Props).
* **C48** (partial) Link velocity filter applies the documented filter to the velocity history.  `C48_raw_history_refuted`, `C48_output_partial`, `C48_converges_partial` (Filter_Props).  false of the code: calc2lpf passes the oldest output where the oldest input belongs; what it computes instead is stated, and it still settles below half the sampling rate

### `Tree`

Well-formedness of parent/child lists as an invariant; renumbering maps.

* **C49** (proved) Deleting a link removes exactly its subtree and keeps the link tree well formed.  `C49_delete`, `C49_returns`, `C49_by_name`, `C49_name_found` (Tree_Props).  for runs that return; they do when no task is on the link or a later one
* **C50** (partial) Contacts and tasks keep designating the same physical link after a deletion.  `C50_contact_refuted`, `C50_task_refuted`, `C50_unrelated_task_refuted`, `C50_last_task_refuted`, `C50_earlier_partial` (Tree_Props).  false of the code: contact ids are never shifted, task ids only when some task was removed, unrelated tasks can be removed, and removing the last task reads past the end; it holds when all contacts and tasks are on earlier links
* **C51** (partial) Torque limits survive model modification.  `C51_refuted`, `C51_reload_refuted`, `C51_delete_zeroes_partial` (Tree_Props).  false of the code: the limit becomes zero and stays in force; shown for every successful deletion
* **C52** (partial) Changing a joint to fixed conserves mass.  `C52_total_mass_refuted`, `C52_unset_frame_refuted`, `C52_bodies_partial` (Tree_Props).  false of the code: total_mass_ loses the mass of the link (always), and the call is undefined before the first UpdateKinematics; the link masses themselves are conserved and the parent body is the union
* **C75** (partial) The base and the COM entry can be deleted or are refused.  `C75_base_refuted`, `C75_com_refuted` (Tree_Props).  false of the code: undefined in every such call
* **C76** (partial) After a deletion RBDL names still lead to their bodies.  `C76_fixed_names_refuted`, `C76_link_names_partial` (Tree_Props).  false of the code for bodies attached by a fixed joint; holds for links
* **C77** (partial) link_num_ and joint_id_ are current after a deletion.  `C77_joint_id_refuted`, `C77_link_num` (Tree_Props).  false of the code
* **C78** (partial) A link added with a revolute joint is a full member of the model.  `C78_add_revolute_partial`, `C78_add_revolute_refuted` (Tree_Props).  false of the code for every such call: no joint entry, no mass; only tree shape and RBDL edit agree
* **C79** (partial) Loading a model builds a link tree that agrees with the RBDL model.  `C79_init_partial`, `C79_reload_refuted`, `C79_massless_refuted` (Tree_Props).  proved for the first load when all bodies past the base have mass; false for reloads (joints are appended) and with massless bodies in between
* **C169** (partial) UpdateKinematics is defined after every modification of the link tree.  `C169_add_refuted`, `C169_defined`, `C169_recorded`, `C169_wf_partial`, `C169_delete_partial` (Tree_Upd).  False: AddLink with a revolute joint appends to link_ but not to joint_, so that the next UpdateKinematics writes past the end of joint_, whatever the tree. True of every well formed tree, in particular after every DeleteLink.
* **C170** (partial) AddLink with a floating joint makes the link a full member of the tree.  `C170_floating_refuted`, `C170_leftover_refuted`, `C170_added_partial` (Tree_Six).  False: joint_ and total_mass_ are not extended, so that DeleteLink of the new link and the next UpdateKinematics are undefined; and even with both repaired DeleteLink removes one of the six degrees of freedom and leaves RBDL five massless bodies. True: the link is appended under its parent with six degrees of freedom and no other link changes but for the list of children of the parent.

### `Red`

Index lists by induction; permutations.

* **C53** (partial) Reduced model partitions the joints.  `C53_partition_iff_partial`, `C53_dimensions_partial`, `C53_shared_joint_refuted`, `C53_below_contact_refuted` (Red_Props).  false in general; the exact condition is proved: no link but the base carries two contacts and nothing without contact hangs below a contact
* **C80** (partial) Tasks follow a change of contacts.  `C80_fresh_partial`, `C80_custom_partial`, `C80_stale_flag_refuted` (Red_Props).  false of the code: flags are only ever set; holds for flags that were clear
* **C81** (partial) Tasks may be given in any order to the reduced controller.  `C81_null_matrix_partial`, `C81_first_noncontact_refuted` (Red_Props).  false of the code: a non-contact task in first place makes it read ts_[-1]; otherwise all accesses are in range

### `RedM`

Block matrix identities; the reduced Jacobian has full row rank.

* **C54** (partial) Reduced inertia is the dynamically consistent projection of the full inertia.  `C54_projection_partial`, `C54_order_refuted` (RedM_Props).  proved for contact chains whose coordinates come first, with the non-contact bodies hanging from the base; false when a non-contact joint precedes a contact joint
* **C82** (partial) Contact matrices of the reduced model are those of the reduced system.  `C82_contact_partial`, `C82_few_contacts_refuted` (RedM_Props).  proved for c <= contact_dof_ <= c + 6 (c contact-chain joints); false with fewer contact coordinates than contact-chain joints
* **C83** (partial) Gravity compensation of the reduced model holds the robot still.  `C83_gravity_partial`, `C83_few_joints_refuted` (RedM_Props).  proved under the conditions of C54 and C82; with fewer than six non-contact joints the reduced inertia is singular for every robot
* **C84** (partial) Torques of the reduced model act on the robot as on the reduced model.  `C84_distribution_partial`, `C84_order_refuted` (RedM_Props).  False when the contact joints do not come first among the joints (C84_order_refuted: the torque of the leg is applied to an arm joint). Proved under the conditions of C54 and for contacts on the contact chains.

### `RedR`

As `QP`, with the two row blocks of the limits written to the same rows.

* **C55** (partial) Contact redistribution of the reduced model enforces both torque limits.  `C55_lower_limit_partial`, `C55_upper_limit_refuted`, `C55_limit_size_refuted` (RedR_Props).  False in general: the rows of the upper torque limits are overwritten by those of the lower limits (both are written to rows 0..m-1), so an optimal answer may exceed an upper limit although the input torque did not (refuted by witness). Proved: the lower limits and the contact cones hold, inputs unchanged, zero on failure. With limits set the call is undefined unless torque_limit_ (model_dof_ entries) has reduced_model_dof_ entries. Only the branch hqp = true.
* **C95** (partial) Contact redistribution of the reduced model writes back the contact joints' torques.  `C95_writeback_partial`, `C95_writeback_refuted`, `C95_out_of_range_refuted` (RedR_Props).  False in general: contact_dof_ entries are copied instead of the co_dof contact joints; refuted with six contact joints and two feet (a virtual-joint torque is commanded to joint 6), and undefined with fewer torques than contact_dof_. Proved when the number of contact joints equals contact_dof_ and they come first.
* **C96** (proved) Contact redistribution of the reduced model minimises tangential contact loads.  `C96_least_tangential` (RedR_Props).  The solver is an oracle assumed optimal; constraints are those of the problem actually built (see C55).

### `Kin`

The links' motion from RBDL's answers; sums over links.

* **C56** (proved) UpdateKinematics rejects ill-sized inputs without side effects.  `C56_ill_sized_ignored`, `C56_well_sized_stored`, `C56_stored_again` (Kin_Props).  A call that completes stores the vectors; the outcome None (singular inverse, zero mass, no link) is excluded in the second theorem.
* **C89** (proved) UpdateKinematics yields the true centroidal quantities.  `C89_centroidal` (Kin_Props).  RBDL is an argument: its matrix is assumed to be symmetric with quadratic form twice the kinetic energy, and the links to follow the floating base rigidly.
* **C90** (partial) UpdateKinematics with update_kinematics=false keeps the dynamics usable.  `C90_no_update_refuted` (Kin_Props).  Refuted for every well-sized input: A_ is zeroed before the flag is tested, so com_pos degenerates to the base position and SI_body_.inverse() inverts a singular matrix. tests/test_thread.cpp:425 calls it this way.
* **C91** (partial) com_vel is the velocity of the centre of mass.  `C91_com_vel_zero`, `C91_com_vel_refuted` (Kin_Props).  Refuted: com_vel is set to zero and never written again (link_.back().v holds the velocity, see C89).

### `PD`

State machine of setter calls; identities over R.

* **C57** (proved) PD reference is exact tracking feed-forward.  `C57_position_law`, `C57_rotation_modes` (PD_Props).
* **C58** (partial) Custom-frame tasks use the velocity of the task point.  `C58_link_frames_partial`, `C58_custom_point_partial`, `C58_custom_frame_refuted` (PD_Props).  false of the code: the custom point is not rotated into the world frame in the velocity; the other frames are right
* **C85** (partial) Orientation reference moves between the given orientations.  `C85_orientation_partial`, `C85_small_turn_refuted` (PD_Props).  False for two different orientations whose quaternions are closer than Eigen epsilon: slerp then interpolates linearly and the reference is not a rotation (C85_small_turn_refuted). Proved in all other cases.
* **C86** (partial) Position and orientation trajectories of a task link are independent.  `C86_position_kept_partial`, `C86_rotation_stretches_position_refuted` (PD_Props).  false of the code: the times are shared; proved when later calls leave the times alone
* **C87** (partial) Rotational feed-forward is part of the reference.  `C87_rot_feedforward_refuted`, `C87_end_twist_refuted` (PD_Props).  false of the code: neither enters
* **C88** (partial) Error regulation bounds the PD errors.  `C88_regulation_refuted`, `C88_regulation_no_effect_refuted` (PD_Props).  false of the code: the flag and the bounds are never read

### `Copy`

Records; list copies with bounds.

* **C59** (partial) CopyKinematicsData does not modify its source.  `C59_source_kept_partial`, `C59_source_flags_overwritten`, `C59_source_kept_refuted` (Copy_Props).  Refuted: if the two robots have different numbers of contacts the loop at src/dwbc.cpp:1743 writes the target flags (or uninitialised ones) into the source. Holds when the numbers agree; nothing but the flags is ever changed.
* **C92** (proved) CopyKinematicsData transfers the robot state.  `C92_target`, `C92_defined_iff` (Copy_Props).  The contact flags are the subject of C59. The two objects are assumed distinct.
* **C93** (proved) A copy can be driven like the original.  `C93_copy_then_set_contact` (Copy_Props).
* **C94** (partial) A copy is in the contact state of the original.  `C94_counts_refuted`, `C94_stale_counts_refuted` (Copy_Props).  Refuted: the counters are not copied; on a fresh target they stay uninitialised, on a used one stale. SetContact repairs this (C93).

### `Thr`

Comparison with the sequential model level by level.

* **C60** (partial) Threaded hierarchical torque equals the sequential one.  `C60_same_task_inverse_partial`, `C60_two_levels_partial`, `C60_levels_alone_partial`, `C60_priority_refuted`, `C60_limits_refuted`, `C60_contact_torque_refuted`, `C60_no_task_refuted` (Thr_Props).  false of the code: every level is checked against gravity alone, the contact redistribution is not commanded, null-space matrices are not chained; holds level by level and, for the top priority, with at most two levels

### `LQP`

The levels handed to the HQP read as equations; the HQP theorems are reused.

* **C97** (proved) ConfigureLQP builds the hierarchy it documents.  `C97_configured_hierarchy` (LQP_Props).  getNullSpace assumed to return a kernel basis; inertia assumed invertible with A_inv_ its inverse.
* **C98** (proved) The LQP answer always satisfies the base dynamics.  `C98_base_dynamics`, `C98_defined` (LQP_Props).  For any solver oracle.
* **C99** (partial) LQP joint torques respect the user's torque limits.  `C99_torque_within_200_partial`, `C99_limits_ignored`, `C99_user_limit_refuted` (LQP_Props, LQP_Props2).  False in general: ConfigureLQP never reads torque_limit_ (proved for all robots), and an exact solve exceeds the limit set (witness). Proved: the hard-coded bound 200 holds at every level if the solver finds admissible points where there are any and no coefficient is dropped.
* **C100** (proved) LQP keeps the contacts at rest while standing is possible.  `C100_contact_acceleration_kept`, `C100_stands_still` (LQP_Props).  Inertia symmetric positive definite; level 1 solved exactly.
* **C101** (partial) LQP meets an attainable task.  `C101_task_never_met`, `C101_attainable_task_refuted` (LQP_Props, LQP_Props2).  False in general: the acceleration cost is added at the same priority as the task, so a first task with a non-zero desired acceleration is never met by an exact solve when level 1 stands still (proved for all robots); witness with an attainable task.
* **C102** (partial) ConfigureLQP can be called again.  `C102_reconfigure_appends`, `C102_again_defined`, `C102_reconfigure_refuted` (LQP_Props2).  False: hqp_hs_ is never cleared; every call appends 2 + #tasks levels that are never written (proved in general), so the last level - where the answer is read - is blank.
* **C103** (partial) ConfigureLQP_R builds the reduced hierarchy for every task list.  `C103_reduced_hierarchy_partial`, `C103_order_needed`, `C103_task_order_refuted` (LQP_Props2).  False in general: the level index uses the task index, so a contact task after a non-contact one writes out of range (proved for all robots). Proved when the contact tasks come first and there are at least four reduced joints.

### `Jacc`

The assembled QP read as a plan (acceleration, torque, force); strict convexity for exactness.

* **C104** (proved) The acceleration-level task QP describes exactly the admissible motions.  `C104_problem_is_plan`, `C104_answer`, `C104_sized` (Jacc_Props).  For robots whose members have the sizes UpdateKinematics/SetContact leave; level index = position in the list. Solver an oracle assumed to answer feasible points.
* **C105** (proved) The acceleration-level hierarchy always succeeds and lower levels keep higher ones.  `C105_hierarchy` (Jacc_Props).  Level loop as in tests/sp_test/dof_comparison_jacc.cpp; solver oracle assumed sound and complete.
* **C106** (partial) The acceleration-level QP respects the torque limits the user set.  `C106_limits_ignored`, `C106_limits_200_partial`, `C106_limit_exceeded_refuted` (Jacc_Props).  False: the user limits do not enter the problem (proved for all robots); witness exceeds the limit at the optimum though a feasible motion respects it. Proved: the hard-coded bound 200 holds.
* **C107** (partial) The acceleration-level QP meets an attainable task exactly.  `C107_exact_iff_partial`, `C107_moving_task_missed`, `C107_attainable_task_missed_refuted` (Jacc_Props).  False: acceleration energy is traded against the deviation. Proved: exact iff the exact motion has the least energy of all admissible ones; a non-zero first task is always missed if rest is admissible.
* **C108** (partial) The acceleration-level QP satisfies the full equation of motion.  `C108_gravity_only_partial`, `C108_moving_robot_refuted` (Jacc_Props).  False: the problem uses G_ only. Proved: the equation of motion holds with bias B iff B is the gravity vector.
* **C109** (proved) The reduced acceleration-level QP describes exactly the admissible reduced motions.  `C109_problem_is_plan`, `C109_answer`, `C109_hierarchy`, `C109_sized` (Jacc_Props).  Solver oracle assumed sound (and complete for the hierarchy).
* **C110** (partial) The acceleration-level QP of the non-contact joints is defined for every task.  `C110_wrong_size`, `C110_problem_partial`, `C110_answer_partial`, `C110_sized`, `C110_other_dims`, `C110_three_dim_refuted` (Jacc_NCProps).  False for tasks that are not six-dimensional: size mismatch (undefined) for all robots. Proved for six-dimensional tasks and for wrong prev_acc sizes.
* **C111** (partial) The non-contact joints give the task link its desired acceleration.  `C111_reference_partial`, `C111_attainable_missed_refuted` (Jacc_NCProps).  False: the code adds r x (f_ang - base_ang) where r x base_ang is needed. Proved: zero deviation gives the desired angular acceleration always, the linear one iff r x (f_ang - 2 base_ang) = 0.
* **C112** (partial) The non-contact joints' torques and accelerations stay within the limits.  `C112_no_limits_partial`, `C112_torque_limit_refuted` (Jacc_NCProps).  False: the bounds are built but deleted. Proved: every joint acceleration, however large, is feasible.

### `RTq`

The reduced level QPs are instances of `QP`; the full robot's contact force through `RedM`.

* **C113** (partial) Reduced hierarchical control accepts the robot's torque limits.  `C113_limit_size_refuted`, `C113_all_joint_limits_refuted` (RTq_Props).  False: the limit rows have reduced_model_dof_ entries; limits for all joints are out of range unless nc_dof = 6. With agreeing sizes see C114.
* **C114** (proved) The reduced hierarchy of contact tasks keeps the contacts of the full robot.  `C114_contact_tasks`, `C114_failure`, `C114_contact_forces` (RTq_Props).  Contact tasks only; the full robot part needs the contact joints to come first, A positive definite, and c <= 6K <= c + 6 (the conditions of C82, C84). Solver oracle assumed sound.
* **C115** (partial) The reduced hierarchy with non-contact tasks keeps the contacts.  `C115_certified_partial`, `C115_contact_refuted` (RTq_NCProps).  False: the QP constrains another torque than the one applied; a standing robot is made to pull on its contact with every exact solver. Proved: which torque the QP certifies, for one non-contact task.
* **C116** (proved) Without corrections, the reduced QP hierarchy gives the closed-form torque.  `C116_no_correction` (RTq_Props).
* **C117** (partial) Non-contact tasks may stand anywhere in the task list.  `C117_below_contact_refuted` (RTq_Props).  False: a non-contact task that is not the first one (nc_heirarchy_ <> 0), directly below a contact task, multiplies by the empty J_task_NC_ of that contact task. The orders covered by C116 are defined.

### `RTS`

Accelerations of the reduced and of the full hierarchy as the same projected sums; induction over the task list.

* **C118** (proved) Contact-chain and COM tasks: the reduced hierarchy does what the full one does.  `C118_contact_hierarchy`, `C118_defined` (RTS_Props).  Motions rather than torques are compared; with contact redundancy the torques differ. The base Jacobian is (1, rot) and the COM Jacobian is made of the first six rows of A.
* **C119** (partial) Tasks on other limbs: the reduced hierarchy does what the full one does.  `C119_two_limb_tasks_partial`, `C119_refuted` (RTS_Ex, RTS_Props).  Holds with at most two limb tasks. False with three: each limb task is only kept out of the one directly above it (ts_[i - 1]), so the third limb task disturbs the first.
* **C120** (proved) The top task of the reduced hierarchy is achieved.  `C120_top_task` (RTS_Props).  hqp = false.
* **C121** (partial) One task may span contact chains and other limbs.  `C121_mixed_task_refuted` (RTS_Undef).  False for every such task whose Lambda_task_ was never computed: CalcJKT_R prints UNDEFINED TASK TYPE and leaves Lambda_task_ empty, and the product with f_star_ in ReducedCalcTaskControlTorque is then of mismatched sizes (hqp = false), or success is never reported (hqp = true).

### `LNC`

The two levels read as equations and limits; the minimum of the first level by convexity along a segment; HQP theorems reused.

* **C122** (proved) The non-contact LQP is built as documented.  `C122_configured_hierarchy` (LNC_Props).  getNullSpace assumed to return a kernel basis; sizes as UpdateKinematics/ReducedDynamicsCalculate leave them.
* **C123** (partial) ConfigureLQP_R_NC handles every task list.  `C123_needs_second_task`, `C123_only_second`, `C123_any_tasks_refuted` (LNC_Props, LNC_Props2).  False: ts_[1] is read unconditionally and must have six rows and a link (proved for all robots); no other task, nor torque_limit_, has any influence (proved).
* **C124** (proved) The group motion has priority over the link task.  `C124_group_first` (LNC_Props).  For any solver oracle.
* **C125** (partial) An attainable group rate is reached.  `C125_best_compromise_partial`, `C125_never_met`, `C125_zero_rate_partial`, `C125_rate_missed_refuted` (LNC_Props, LNC_Props2).  False: the acceleration cost is minimised together with the deviation, so no non-zero wanted rate is ever met when holding still is within the limits (proved for all robots). Proved: level 0 is the best compromise; the zero rate is met.
* **C126** (partial) The non-contact torques keep the torque limits.  `C126_excess_kept_partial`, `C126_bound_partial`, `C126_bound_exceeded_refuted` (LNC_Props, LNC_Props2).  False: the limit rows are soft and torque_limit_ is not read; witness with torque 300 and limit 10. Proved: level 1 does not exceed the limits by more than level 0 does, and the bound 200 holds for a zero wanted rate.
* **C127** (partial) Configuring the non-contact LQP again replaces it.  `C127_reconfigure_appends`, `C127_again_defined`, `C127_reconfigure_refuted` (LNC_Ex, LNC_Props, LNC_Props2).  False: hqp_hs_ is never cleared; every call appends two levels that are never written (proved for all robots), and the answer is read from the last level.
* **C128** (partial) Meeting the second level gives the link its desired acceleration.  `C128_link_acceleration_partial`, `C128_link_missed_refuted` (LNC_Props, LNC_Props2).  False: the code adds r x (f_ang - base_ang) where r x base_ang is needed. Proved: the angular part always, the linear part iff r x (f_ang - 2 base_ang) = 0.

### `RedC`

The redistribution theorems of `Redis` on the reduced robot of `RedM`; the torque acts on the contact joints only, so it carries over to the full robot.

* **C129** (proved) Closed-form redistribution of the reduced model moves the real contact forces.  `C129_force_produced`, `C129_defined_iff`, `C129_again` (RedC_Props).  Two plane contacts on the twelve leading joints (co_dof = 12). V2_R is assumed to be a basis of the null space of W_R.
* **C130** (partial) Closed-form redistribution of the reduced model works for any two plane contacts.  `C130_other_legs_refuted`, `C130_other_contacts_refuted` (RedC_Props).  False for every robot whose contact chains do not have twelve joints (zero torque, returns 0), and undefined for twelve contact joints and any other number of contact coordinates above six. The branch tests co_dof where the full version tests contact_dof_. For twelve joints and two contacts see C129.
* **C171** (partial) Redistribution of the reduced model uses the positions of the two active feet.  `C171_active_feet_refuted`, `C171_second_contact_partial` (RedC_Feet).  False: cc_[0] and cc_[1] are used whatever their activation; on a robot with two legs of six joints and an inactive contact registered between the feet the force becomes no split of the wrench. True for every robot: the acceleration and the net wrench are kept, and the second foot gets the share of a foot standing where the second registered contact is. The refutation is an instance of the hypotheses of the partial theorem.

### `Brg`

State machine over the calls a Python program can make; invariants by induction over the calls, motions by the `Dyn` and `Redis` theorems.

* **C131** (proved) The Python bridge hands over the state and the references.  `C131_state_transferred`, `C131_references`, `C131_references_kept` (Brg_Props).
* **C132** (partial) The Python bridge reads the elements of the arrays it is given.  `C132_strided_refuted`, `C132_short_refuted` (Brg_Props).  False: strides are not looked at, so a view with gaps gives another configuration (C132_strided_refuted); a short array is read past its end, undefined behaviour (C132_short_refuted). Contiguous arrays of the right length: C131.
* **C133** (proved) Commands of the Python bridge do the first task.  `C133_one_foot`, `C133_two_feet`, `C133_defined`, `C133_two_defined` (Brg_Props).
* **C134** (partial) Commands of the Python bridge respect the torque limit.  `C134_torque_limit_refuted` (Brg_Props).  False for every robot on one foot: CalcTorque passes hqp = false, so no quadratic program sees the limit; whatever the bound, some reference gives a command above it.
* **C135** (partial) Reset of the Python bridge restarts the controller.  `C135_reset_ignored_refuted` (Brg_Props).  False: dropping all Reset calls from any program gives the same command. CalcTorque clears the flag before reading it.
* **C136** (proved) Commands of the Python bridge depend on the last cycle only.  `C136_history`, `C136_again` (Brg_Props).
* **C137** (partial) Commands of the Python bridge are for the state last given.  `C137_stale_refuted` (Brg_Props).  False: N_C, W_inv and J_C_INV_T are computed by SetContact only, and mixed with the new inverse mass matrix. With SetContact called again: C133.
* **C138** (partial) Every combination of feet can be set.  `C138_no_foot_refuted`, `C138_some_foot` (Brg_Props).  False for no foot: V2 is resized to contact_dof_ - 6 = -6 rows. The other three combinations are defined for feet of full row rank (C138_some_foot).

### `Chg`

Tables as lists with explicit out-of-range outcomes; C141 re-runs the `Kin` proof with an arbitrary stored mass; C142 expresses energy and momentum by mass, first moment and inertia at the origin, which add up (C45).

* **C139** (proved) ChangeLinkInertia changes one link, everywhere.  `C139_defined`, `C139_change`, `C139_any_case` (Chg_Props).
* **C140** (partial) ChangeLinkInertia handles a wrong name.  `C140_unknown_refuted`, `C140_com_refuted` (Chg_Props).  False: getLinkID returns -1, which indexes link_; the entry COM has body_id_ -1, which indexes mBodies.
* **C141** (partial) The centre of mass follows a changed link mass.  `C141_total_mass_refuted`, `C141_com_pos_refuted`, `C141_stale_partial`, `C141_lowered_completes` (Chg_Props).  False: total_mass_ keeps its old value. com_pos is off whenever the mass changed and the centre of mass is not at the base. What stays right: G_, A_, A_inv_, CMM_ about the com_pos computed (C141_stale_partial).
* **C142** (proved) A locked sub-tree may be replaced by its virtual inertia.  `C142_locked` (Chg_Props).
* **C143** (partial) CalcVirtualInertia returns one body in one frame.  `C143_frame_refuted`, `C143_parallel_partial` (Chg_Props).  False: the centre of mass is in world coordinates, the inertia in those of the first link. True when the first link is parallel to the world frame.
* **C144** (proved) CalcVirtualCMM gives the angular momentum.  `C144_virtual_cmm`, `C144_same_as_CMM`, `C144_empty` (Chg_Props).  An empty list is undefined behaviour (C144_empty).

### `Vmd`

Loop invariant over the passes (ids, names, parents of the bodies added so far); poses by strong induction along parents; the Jacobian's columns collected into two sums, so that moving the point is one cross product.

* **C145** (proved) InitModelWithLinkJoint builds the tree the links describe.  `C145_structure` (Vmd_Props).  RBDL's AddBody is taken from its documentation.
* **C146** (partial) The virtual model has the pose of its links.  `C146_refuted`, `C146_transposed_refuted`, `C146_symmetric_partial` (Vmd_Props).  False: joint_rotation_ holds the transpose of X_T.E (src/link.cpp:62) and is handed to RBDL as E without transposing it back, so a joint taken from a loaded model comes back transposed. True when every joint rotation is symmetric.
* **C147** (partial) The joints of a loaded robot can be used to build a model.  `C147_loaded_refuted` (Vmd_Props).  False: the base's Joint is made with its type only; joint_rotation_ and joint_translation_ are read without having been set.
* **C148** (proved) Point Jacobians of a link describe one rigid motion.  `C148_point_jacobian`, `C148_other_joints` (Vmd_Props).  RBDL's CalcPointJacobian6D is taken from its source as repeated in GetJacDot.
* **C149** (partial) GetJacDot is the time derivative of the point Jacobian.  `C149_jacobian_refuted`, `C149_at_rest_refuted` (Vmd_Props).  False: the function returns the Jacobian itself, angular rows first, of the point whose world coordinates equal the link's velocity; q_dot and point are not read. At rest it vanishes only if no joint moves the link.

### `Bin`

Floating point by case analysis on `spec_float`; the sum over any tree of additions is NaN if a leaf is, 0 if all are; the witnesses by computation.

* **C150** (partial) A matrix written by write_binary is confirmed by check_binary.  `C150_self`, `C150_infinite_refuted`, `C150_other_files` (Bin_Props).  False for a matrix with an infinite entry: inf - inf is NaN, reported as an error. C150_self gives the verdict for every matrix, for any order of summation in norm().
* **C151** (partial) check_binary says OK only of the matrix that was written.  `C151_tiny_refuted`, `C151_different_partial`, `C151_similar_partial`, `C151_powers_partial` (Bin_Props).  False: a difference of 2^-548 squares to 0. The other half (similar or different only if not equal) holds, what is called similar is below 1e-6, and differences of 2^k whose square does not underflow are reported with their size.
* **C152** (partial) check_binary reports a missing file or a matrix of another size.  `C152_missing_refuted`, `C152_other_size_refuted` (Bin_Props).  False: the sizes are not compared before the subtraction, and a missing file leaves an empty matrix; both are undefined behaviour (assert in a debug build). Refuted for every such file.

### `CCo`

State machine over the calls; induction over the call sequence; the ten rows expanded.

* **C153** (proved) A contact's constraint matrix accepts exactly the wrenches it can hold.  `C153_cone`, `C153_no_pressure` (CCo_Props).  GetPressConstMatrix3x6 is all zero and restricts nothing.
* **C154** (partial) A contact is on or off as last asked for.  `C154_switch_partial`, `C154_unset_refuted` (CCo_Props).  False before the first call: the constructor does not set the member. True from the first call on.
* **C155** (partial) The announced number of constraints is the number of rows of the matrix.  `C155_point_refuted`, `C155_link_refuted`, `C155_plane_line_partial`, `C155_coordinates` (CCo_Props).  False for point contacts (6 announced, 10 rows) and for CONTACT_LINK (member never set). True for plane and line contacts.

### `Cod`

Full-rank factorisation read off the decomposition; pivots bounded below through a well conditioned factorisation A = B C; the refutations hold for every decomposition Eigen may return (determinant and column-length invariants); existence by Householder reflections.

* **C156** (partial) Pseudo-inverses are the Moore-Penrose inverse.  `C156_pinv_partial`, `C156_conditioned_partial`, `C156_near_partial`, `C156_threshold_refuted` (Cod_Props).  False: pivots up to 1e-6 times the largest are dropped, so the positive definite diag(1, 1e-6) is treated as singular, whatever decomposition Eigen picks. True if no pivot is small without being zero, and for every matrix well conditioned against the threshold (a condition on the matrix alone); in any case the result is the inverse of a matrix within 1e-6 of the longest column.
* **C157** (partial) The null-space output of PinvCODWB is a basis of the left null space.  `C157_left_null_partial`, `C157_conditioned_partial`, `C157_wide_refuted`, `C157_tall_refuted`, `C157_forced_partial`, `C157_forced_refuted` (Cod_Props).  False for matrices with more columns than rows (block outside of Q, undefined), with fewer (V2 has too few columns to multiply A), and for a forced rank other than the rank. True for square matrices of clear rank.
* **C158** (partial) getNullSpace returns a basis of the kernel.  `C158_kernel_partial`, `C158_conditioned_partial`, `C158_threshold_refuted`, `C158_empty_refuted` (Cod_Props).  False below the threshold and undefined for a matrix without columns. True for matrices of clear rank, in particular well conditioned ones.
* **C159** (partial) HQP prepares every hierarchy.  `C159_freedom_partial`, `C159_no_freedom_refuted` (Cod_Props).  False: once a level that is not the last leaves no freedom, the next getNullSpace gets a matrix without columns, which is undefined. True, with exact rank decisions, if every level but the last leaves some freedom.

### `Llt`

Invariant over the finished columns (L L^T agrees with A there, the rest untouched); a pivot is positive because the quadratic form is evaluated at a kernel vector of the finished rows; the converse because a product L L^T with non-zero diagonal is positive definite.

* **C160** (proved) A_inv_ is the inverse of the inertia matrix for every robot with mass in all links.  `C160_inverse`, `C160_robot`, `C160_lower_triangle` (Llt_Props).  In exact arithmetic with exact square roots, for the column by column algorithm of Eigen.
* **C161** (partial) A_inv_ is the inverse of A_ or the failure is visible.  `C161_only_posdef_partial`, `C161_always_posdef_partial`, `C161_massless_partial`, `C161_indefinite_refuted`, `C161_singular_refuted` (Llt_Props).  False: for diag(1,-1), and for the singular [1 1; 1 1], a positive definite matrix that is not the inverse is stored and nothing is reported. For symmetric matrices the result is the inverse exactly when the matrix is positive definite, which is exactly what the unread info() says; with a motion that moves no mass it never is.

### `Quat`

Twenty-four quadratic identities of the nine entries (linear combinations of orthonormality and cofactor relations), from which all products of components follow.

* **C162** (proved) GetQuat gives the orientation of the link.  `C162_represents`, `C162_only` (Quat_Props).  In exact arithmetic with exact square roots, for the published algorithm of Eigen.
* **C163** (partial) GetQuat picks the representative with non-negative w.  `C163_positive_partial`, `C163_negative_refuted`, `C163_jump_refuted` (Quat_Props).  False: w is negative for a turn of -143 degrees about the vertical axis, and arbitrarily close orientations about 120 degrees from the reference get quaternions of opposite sign. True while the trace is positive (less than 120 degrees).

### `QPO`

Induction over the history: two objects that differ in their options only behave alike.

* **C164** (partial) EnableEqualityCondition and DisableEqualityCondition decide how the next solve treats equalities.  `C164_overwritten_refuted`, `C164_ignored_partial`, `C164_mode_partial` (QPO_Props).  False: SolveQPoases overwrites all options. For every history and every solver both calls can be left out without changing anything; equalities are treated exactly in the first attempt of a solve with MPC set. The tolerance is never used. Rests on setToMPC and setToReliable of qpOASES assigning every option.

### `HQS`

Raising negative slacks to zero keeps an answer feasible and lowers its cost, so the bounds exclude no minimiser and admit no other.

* **C165** (proved) Both solver back ends of a hierarchy level have the same optimal answers.  `C165_same_answers`, `C165_first_level` (HQS_Props).  As in C32: exact arithmetic, symmetric additional cost, no coefficient at or below the threshold of sparseView.

### `OSQ`

Two oracles that agree on the problems of a run give the same run; the state of one object after one call is computed.

* **C166** (partial) Every solve of a hierarchy answers for its current matrices.  `C166_again_refuted`, `C166_stale_partial`, `C166_first_partial`, `C166_update_partial`, `C166_no_init_partial`, `C166_first_level_partial` (OSQ_Props).  False: a second solve with init = true, the default, answers for the problem loaded by the first whatever the matrices now are (setHessianMatrix, setLinearConstraintsMatrix and initSolver of OsqpEigen refuse when already done, and their return values are ignored). True for the first solve with init and for all later solves without it, sizes unchanged. Without any init nothing is solved. Rests on the documented behaviour of OsqpEigen.
* **C167** (partial) A copy of an HQP object can be solved independently of the original.  `C167_copy_refuted`, `C167_updates_partial` (OSQ_Props).  False: copies share the solver objects through osqp_solver_, so of two copies solved with init the second gets the answers of the first. Solves without init do not disturb each other.

## 4. Trusted base

* Coq's kernel (8.16.1) and the installed libraries' definitions (mathcomp, Coquelicot definitions in statements about derivatives).
* The reading of the C++ text by which the definitions were written (every definition cites its lines).
* The assumptions on external code listed in section 1.  They are hypotheses or arguments of the theorems, not axioms.
* No axiom is declared in this development; none is used except those of the standard library listed below
  (classical real numbers and functional extensionality, by way of `Reals`).

### Axioms by theorem

`Print Assumptions` follows every property theorem in its file; the result for the theorems of MANIFEST.json:

* no axiom ("Closed under the global context") — 369 of 401 theorems: all those not listed below.
* `ClassicalDedekindReals.sig_forall_dec`, `FunctionalExtensionality.functional_extensionality_dep` — 8 theorems: C35_quintic, C40_vanishes_only_at_target_refuted, C57_position_law, C57_rotation_modes, C58_link_frames_partial, C58_custom_point_partial, C86_rotation_stretches_position_refuted, C88_regulation_refuted.
* `ClassicalDedekindReals.sig_forall_dec`, `ClassicalDedekindReals.sig_not_dec`, `Classical_Prop.classic`, `FunctionalExtensionality.functional_extensionality_dep` — 12 theorems: C36_rest_to_rest, C37_cubic, C39_rotation, C39_interpolates, C40_zero_set_partial, C74_axis_transform_partial, C74_opposite_refuted, C85_orientation_partial, C85_small_turn_refuted, C87_rot_feedforward_refuted, C87_end_twist_refuted, C88_regulation_no_effect_refuted.
* `ClassicalDedekindReals.sig_forall_dec`, `ClassicalDedekindReals.sig_not_dec`, `FunctionalExtensionality.functional_extensionality_dep` — 11 theorems: C38_elementary, C38_about_axis, C40_zero_odd_axis_partial, C47_unit_gain, C47_linear, C47_poles, C47_converges, C48_raw_history_refuted, C48_output_partial, C48_converges_partial, C58_custom_frame_refuted.
* `ClassicalDedekindReals.sig_forall_dec` — 1 theorems: C86_position_kept_partial.
