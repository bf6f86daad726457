{
 "claims": [
  {
   "property": "C01",
   "status": "proved",
   "theorems": [
    "C01_accepted",
    "C01_defined",
    "C01_rejected",
    "C01_contact_sizes"
   ],
   "note": ""
  },
  {
   "property": "C02",
   "status": "proved",
   "theorems": [
    "C02_one_contact_per_link",
    "C02_add_by_name",
    "C02_add_by_index"
   ],
   "note": ""
  },
  {
   "property": "C03",
   "status": "proved",
   "theorems": [
    "C03_registry",
    "C03_rejected",
    "C03_added_link",
    "C03_added_task"
   ],
   "note": ""
  },
  {
   "property": "C04",
   "status": "proved",
   "theorems": [
    "C04_task_dimension"
   ],
   "note": ""
  },
  {
   "property": "C05",
   "status": "proved",
   "theorems": [
    "C05_task_jacobian",
    "C05_defined"
   ],
   "note": ""
  },
  {
   "property": "C06",
   "status": "proved",
   "theorems": [
    "C06_contact_jacobian"
   ],
   "note": ""
  },
  {
   "property": "C07",
   "status": "partial",
   "theorems": [
    "C07_out_of_range_refuted",
    "C07_in_range_partial"
   ],
   "note": "False of the code for every priority that does not exist: ts_[heirarchy] is read before the range test. The effect for existing priorities is proved."
  },
  {
   "property": "C08",
   "status": "proved",
   "theorems": [
    "C08_constraint_matrix_is_cone"
   ],
   "note": ""
  },
  {
   "property": "C09",
   "status": "proved",
   "theorems": [
    "C09_cop_inside_plate"
   ],
   "note": ""
  },
  {
   "property": "C10",
   "status": "partial",
   "theorems": [
    "C10_constraint_matrix_refuted",
    "C10_point_contact_undefined",
    "C10_line_contact_undefined",
    "C10_plane_contacts_partial"
   ],
   "note": "False of the code: activating a point or line contact reads a row block of the Jacobian that does not exist, and a last active contact of fewer than six degrees of freedom makes the constraint matrix write out of range. Proved for plane contacts."
  },
  {
   "property": "C100",
   "status": "proved",
   "theorems": [
    "C100_contact_acceleration_kept",
    "C100_stands_still"
   ],
   "note": "Inertia symmetric positive definite; level 1 solved exactly."
  },
  {
   "property": "C101",
   "status": "partial",
   "theorems": [
    "C101_task_never_met",
    "C101_attainable_task_refuted"
   ],
   "note": "False in general: the acceleration cost is added at the same priority as the task, so a first task with a non-zero desired acceleration is never met by an exact solve when level 1 stands still (proved for all robots); witness with an attainable task."
  },
  {
   "property": "C102",
   "status": "partial",
   "theorems": [
    "C102_reconfigure_appends",
    "C102_again_defined",
    "C102_reconfigure_refuted"
   ],
   "note": "False: hqp_hs_ is never cleared; every call appends 2 + #tasks levels that are never written (proved in general), so the last level - where the answer is read - is blank."
  },
  {
   "property": "C103",
   "status": "partial",
   "theorems": [
    "C103_reduced_hierarchy_partial",
    "C103_order_needed",
    "C103_task_order_refuted"
   ],
   "note": "False in general: the level index uses the task index, so a contact task after a non-contact one writes out of range (proved for all robots). Proved when the contact tasks come first and there are at least four reduced joints."
  },
  {
   "property": "C104",
   "status": "proved",
   "theorems": [
    "C104_problem_is_plan",
    "C104_answer",
    "C104_sized"
   ],
   "note": "For robots whose members have the sizes UpdateKinematics/SetContact leave; level index = position in the list. Solver an oracle assumed to answer feasible points."
  },
  {
   "property": "C105",
   "status": "proved",
   "theorems": [
    "C105_hierarchy"
   ],
   "note": "Level loop as in tests/sp_test/dof_comparison_jacc.cpp; solver oracle assumed sound and complete."
  },
  {
   "property": "C106",
   "status": "partial",
   "theorems": [
    "C106_limits_ignored",
    "C106_limits_200_partial",
    "C106_limit_exceeded_refuted"
   ],
   "note": "False: the user limits do not enter the problem (proved for all robots); witness exceeds the limit at the optimum though a feasible motion respects it. Proved: the hard-coded bound 200 holds."
  },
  {
   "property": "C107",
   "status": "partial",
   "theorems": [
    "C107_exact_iff_partial",
    "C107_moving_task_missed",
    "C107_attainable_task_missed_refuted"
   ],
   "note": "False: acceleration energy is traded against the deviation. Proved: exact iff the exact motion has the least energy of all admissible ones; a non-zero first task is always missed if rest is admissible."
  },
  {
   "property": "C108",
   "status": "partial",
   "theorems": [
    "C108_gravity_only_partial",
    "C108_moving_robot_refuted"
   ],
   "note": "False: the problem uses G_ only. Proved: the equation of motion holds with bias B iff B is the gravity vector."
  },
  {
   "property": "C109",
   "status": "proved",
   "theorems": [
    "C109_problem_is_plan",
    "C109_answer",
    "C109_hierarchy",
    "C109_sized"
   ],
   "note": "Solver oracle assumed sound (and complete for the hierarchy)."
  },
  {
   "property": "C11",
   "status": "partial",
   "theorems": [
    "C11_zmp_index_refuted",
    "C11_zmp_average_partial"
   ],
   "note": "False of the code when an inactive contact is registered before an active one (out-of-range read). Proved when the active contacts come first."
  },
  {
   "property": "C110",
   "status": "partial",
   "theorems": [
    "C110_wrong_size",
    "C110_problem_partial",
    "C110_answer_partial",
    "C110_sized",
    "C110_other_dims",
    "C110_three_dim_refuted"
   ],
   "note": "False for tasks that are not six-dimensional: size mismatch (undefined) for all robots. Proved for six-dimensional tasks and for wrong prev_acc sizes."
  },
  {
   "property": "C111",
   "status": "partial",
   "theorems": [
    "C111_reference_partial",
    "C111_attainable_missed_refuted"
   ],
   "note": "False: the code adds r x (f_ang - base_ang) where r x base_ang is needed. Proved: zero deviation gives the desired angular acceleration always, the linear one iff r x (f_ang - 2 base_ang) = 0."
  },
  {
   "property": "C112",
   "status": "partial",
   "theorems": [
    "C112_no_limits_partial",
    "C112_torque_limit_refuted"
   ],
   "note": "False: the bounds are built but deleted. Proved: every joint acceleration, however large, is feasible."
  },
  {
   "property": "C113",
   "status": "partial",
   "theorems": [
    "C113_limit_size_refuted",
    "C113_all_joint_limits_refuted"
   ],
   "note": "False: the limit rows have reduced_model_dof_ entries; limits for all joints are out of range unless nc_dof = 6. With agreeing sizes see C114."
  },
  {
   "property": "C114",
   "status": "proved",
   "theorems": [
    "C114_contact_tasks",
    "C114_failure",
    "C114_contact_forces"
   ],
   "note": "Contact tasks only; the full robot part needs the contact joints to come first, A positive definite, and c <= 6K <= c + 6 (the conditions of C82, C84). Solver oracle assumed sound."
  },
  {
   "property": "C115",
   "status": "partial",
   "theorems": [
    "C115_certified_partial",
    "C115_contact_refuted"
   ],
   "note": "False: the QP constrains another torque than the one applied; a standing robot is made to pull on its contact with every exact solver. Proved: which torque the QP certifies, for one non-contact task."
  },
  {
   "property": "C116",
   "status": "proved",
   "theorems": [
    "C116_no_correction"
   ],
   "note": ""
  },
  {
   "property": "C117",
   "status": "partial",
   "theorems": [
    "C117_below_contact_refuted"
   ],
   "note": "False: a non-contact task that is not the first one (nc_heirarchy_ <> 0), directly below a contact task, multiplies by the empty J_task_NC_ of that contact task. The orders covered by C116 are defined."
  },
  {
   "property": "C118",
   "status": "proved",
   "theorems": [
    "C118_contact_hierarchy",
    "C118_defined"
   ],
   "note": "Motions rather than torques are compared; with contact redundancy the torques differ. The base Jacobian is (1, rot) and the COM Jacobian is made of the first six rows of A."
  },
  {
   "property": "C119",
   "status": "partial",
   "theorems": [
    "C119_two_limb_tasks_partial",
    "C119_refuted"
   ],
   "note": "Holds with at most two limb tasks. False with three: each limb task is only kept out of the one directly above it (ts_[i - 1]), so the third limb task disturbs the first."
  },
  {
   "property": "C12",
   "status": "proved",
   "theorems": [
    "C12_contact_force_solves_motion"
   ],
   "note": ""
  },
  {
   "property": "C120",
   "status": "proved",
   "theorems": [
    "C120_top_task"
   ],
   "note": "hqp = false."
  },
  {
   "property": "C121",
   "status": "partial",
   "theorems": [
    "C121_mixed_task_refuted"
   ],
   "note": "False for every such task whose Lambda_task_ was never computed: CalcJKT_R prints UNDEFINED TASK TYPE and leaves Lambda_task_ empty, and the product with f_star_ in ReducedCalcTaskControlTorque is then of mismatched sizes (hqp = false), or success is never reported (hqp = true)."
  },
  {
   "property": "C122",
   "status": "proved",
   "theorems": [
    "C122_configured_hierarchy"
   ],
   "note": "getNullSpace assumed to return a kernel basis; sizes as UpdateKinematics/ReducedDynamicsCalculate leave them."
  },
  {
   "property": "C123",
   "status": "partial",
   "theorems": [
    "C123_needs_second_task",
    "C123_only_second",
    "C123_any_tasks_refuted"
   ],
   "note": "False: ts_[1] is read unconditionally and must have six rows and a link (proved for all robots); no other task, nor torque_limit_, has any influence (proved)."
  },
  {
   "property": "C124",
   "status": "proved",
   "theorems": [
    "C124_group_first"
   ],
   "note": "For any solver oracle."
  },
  {
   "property": "C125",
   "status": "partial",
   "theorems": [
    "C125_best_compromise_partial",
    "C125_never_met",
    "C125_zero_rate_partial",
    "C125_rate_missed_refuted"
   ],
   "note": "False: the acceleration cost is minimised together with the deviation, so no non-zero wanted rate is ever met when holding still is within the limits (proved for all robots). Proved: level 0 is the best compromise; the zero rate is met."
  },
  {
   "property": "C126",
   "status": "partial",
   "theorems": [
    "C126_excess_kept_partial",
    "C126_bound_partial",
    "C126_bound_exceeded_refuted"
   ],
   "note": "False: the limit rows are soft and torque_limit_ is not read; witness with torque 300 and limit 10. Proved: level 1 does not exceed the limits by more than level 0 does, and the bound 200 holds for a zero wanted rate."
  },
  {
   "property": "C127",
   "status": "partial",
   "theorems": [
    "C127_reconfigure_appends",
    "C127_again_defined",
    "C127_reconfigure_refuted"
   ],
   "note": "False: hqp_hs_ is never cleared; every call appends two levels that are never written (proved for all robots), and the answer is read from the last level."
  },
  {
   "property": "C128",
   "status": "partial",
   "theorems": [
    "C128_link_acceleration_partial",
    "C128_link_missed_refuted"
   ],
   "note": "False: the code adds r x (f_ang - base_ang) where r x base_ang is needed. Proved: the angular part always, the linear part iff r x (f_ang - 2 base_ang) = 0."
  },
  {
   "property": "C129",
   "status": "proved",
   "theorems": [
    "C129_force_produced",
    "C129_defined_iff",
    "C129_again"
   ],
   "note": "Two plane contacts on the twelve leading joints (co_dof = 12). V2_R is assumed to be a basis of the null space of W_R."
  },
  {
   "property": "C13",
   "status": "proved",
   "theorems": [
    "C13_contact_projector"
   ],
   "note": ""
  },
  {
   "property": "C130",
   "status": "partial",
   "theorems": [
    "C130_other_legs_refuted",
    "C130_other_contacts_refuted"
   ],
   "note": "False for every robot whose contact chains do not have twelve joints (zero torque, returns 0), and undefined for twelve contact joints and any other number of contact coordinates above six. The branch tests co_dof where the full version tests contact_dof_. For twelve joints and two contacts see C129."
  },
  {
   "property": "C131",
   "status": "proved",
   "theorems": [
    "C131_state_transferred",
    "C131_references",
    "C131_references_kept"
   ],
   "note": ""
  },
  {
   "property": "C132",
   "status": "partial",
   "theorems": [
    "C132_strided_refuted",
    "C132_short_refuted"
   ],
   "note": "False: strides are not looked at, so a view with gaps gives another configuration (C132_strided_refuted); a short array is read past its end, undefined behaviour (C132_short_refuted). Contiguous arrays of the right length: C131."
  },
  {
   "property": "C133",
   "status": "proved",
   "theorems": [
    "C133_one_foot",
    "C133_two_feet",
    "C133_defined",
    "C133_two_defined"
   ],
   "note": ""
  },
  {
   "property": "C134",
   "status": "partial",
   "theorems": [
    "C134_torque_limit_refuted"
   ],
   "note": "False for every robot on one foot: CalcTorque passes hqp = false, so no quadratic program sees the limit; whatever the bound, some reference gives a command above it."
  },
  {
   "property": "C135",
   "status": "partial",
   "theorems": [
    "C135_reset_ignored_refuted"
   ],
   "note": "False: dropping all Reset calls from any program gives the same command. CalcTorque clears the flag before reading it."
  },
  {
   "property": "C136",
   "status": "proved",
   "theorems": [
    "C136_history",
    "C136_again"
   ],
   "note": ""
  },
  {
   "property": "C137",
   "status": "partial",
   "theorems": [
    "C137_stale_refuted"
   ],
   "note": "False: N_C, W_inv and J_C_INV_T are computed by SetContact only, and mixed with the new inverse mass matrix. With SetContact called again: C133."
  },
  {
   "property": "C138",
   "status": "partial",
   "theorems": [
    "C138_no_foot_refuted",
    "C138_some_foot"
   ],
   "note": "False for no foot: V2 is resized to contact_dof_ - 6 = -6 rows. The other three combinations are defined for feet of full row rank (C138_some_foot)."
  },
  {
   "property": "C139",
   "status": "proved",
   "theorems": [
    "C139_defined",
    "C139_change",
    "C139_any_case"
   ],
   "note": ""
  },
  {
   "property": "C14",
   "status": "proved",
   "theorems": [
    "C14_gravity_compensation_still"
   ],
   "note": ""
  },
  {
   "property": "C140",
   "status": "partial",
   "theorems": [
    "C140_unknown_refuted",
    "C140_com_refuted"
   ],
   "note": "False: getLinkID returns -1, which indexes link_; the entry COM has body_id_ -1, which indexes mBodies."
  },
  {
   "property": "C141",
   "status": "partial",
   "theorems": [
    "C141_total_mass_refuted",
    "C141_com_pos_refuted",
    "C141_stale_partial",
    "C141_lowered_completes"
   ],
   "note": "False: total_mass_ keeps its old value. com_pos is off whenever the mass changed and the centre of mass is not at the base. What stays right: G_, A_, A_inv_, CMM_ about the com_pos computed (C141_stale_partial)."
  },
  {
   "property": "C142",
   "status": "proved",
   "theorems": [
    "C142_locked"
   ],
   "note": ""
  },
  {
   "property": "C143",
   "status": "partial",
   "theorems": [
    "C143_frame_refuted",
    "C143_parallel_partial"
   ],
   "note": "False: the centre of mass is in world coordinates, the inertia in those of the first link. True when the first link is parallel to the world frame."
  },
  {
   "property": "C144",
   "status": "proved",
   "theorems": [
    "C144_virtual_cmm",
    "C144_same_as_CMM",
    "C144_empty"
   ],
   "note": "An empty list is undefined behaviour (C144_empty)."
  },
  {
   "property": "C145",
   "status": "proved",
   "theorems": [
    "C145_structure"
   ],
   "note": "RBDL's AddBody is taken from its documentation."
  },
  {
   "property": "C146",
   "status": "partial",
   "theorems": [
    "C146_refuted",
    "C146_transposed_refuted",
    "C146_symmetric_partial"
   ],
   "note": "False: joint_rotation_ holds the transpose of X_T.E (src/link.cpp:62) and is handed to RBDL as E without transposing it back, so a joint taken from a loaded model comes back transposed. True when every joint rotation is symmetric."
  },
  {
   "property": "C147",
   "status": "partial",
   "theorems": [
    "C147_loaded_refuted"
   ],
   "note": "False: the base's Joint is made with its type only; joint_rotation_ and joint_translation_ are read without having been set."
  },
  {
   "property": "C148",
   "status": "proved",
   "theorems": [
    "C148_point_jacobian",
    "C148_other_joints"
   ],
   "note": "RBDL's CalcPointJacobian6D is taken from its source as repeated in GetJacDot."
  },
  {
   "property": "C149",
   "status": "partial",
   "theorems": [
    "C149_jacobian_refuted",
    "C149_at_rest_refuted"
   ],
   "note": "False: the function returns the Jacobian itself, angular rows first, of the point whose world coordinates equal the link's velocity; q_dot and point are not read. At rest it vanishes only if no joint moves the link."
  },
  {
   "property": "C15",
   "status": "proved",
   "theorems": [
    "C15_gravity_torque_least_norm"
   ],
   "note": ""
  },
  {
   "property": "C150",
   "status": "partial",
   "theorems": [
    "C150_self",
    "C150_infinite_refuted",
    "C150_other_files"
   ],
   "note": "False for a matrix with an infinite entry: inf - inf is NaN, reported as an error. C150_self gives the verdict for every matrix, for any order of summation in norm()."
  },
  {
   "property": "C151",
   "status": "partial",
   "theorems": [
    "C151_tiny_refuted",
    "C151_different_partial",
    "C151_similar_partial",
    "C151_powers_partial"
   ],
   "note": "False: a difference of 2^-548 squares to 0. The other half (similar or different only if not equal) holds, what is called similar is below 1e-6, and differences of 2^k whose square does not underflow are reported with their size."
  },
  {
   "property": "C152",
   "status": "partial",
   "theorems": [
    "C152_missing_refuted",
    "C152_other_size_refuted"
   ],
   "note": "False: the sizes are not compared before the subtraction, and a missing file leaves an empty matrix; both are undefined behaviour (assert in a debug build). Refuted for every such file."
  },
  {
   "property": "C153",
   "status": "proved",
   "theorems": [
    "C153_cone",
    "C153_no_pressure"
   ],
   "note": "GetPressConstMatrix3x6 is all zero and restricts nothing."
  },
  {
   "property": "C154",
   "status": "partial",
   "theorems": [
    "C154_switch_partial",
    "C154_unset_refuted"
   ],
   "note": "False before the first call: the constructor does not set the member. True from the first call on."
  },
  {
   "property": "C155",
   "status": "partial",
   "theorems": [
    "C155_point_refuted",
    "C155_link_refuted",
    "C155_plane_line_partial",
    "C155_coordinates"
   ],
   "note": "False for point contacts (6 announced, 10 rows) and for CONTACT_LINK (member never set). True for plane and line contacts."
  },
  {
   "property": "C156",
   "status": "partial",
   "theorems": [
    "C156_pinv_partial",
    "C156_conditioned_partial",
    "C156_near_partial",
    "C156_threshold_refuted"
   ],
   "note": "False: pivots up to 1e-6 times the largest are dropped, so the positive definite diag(1, 1e-6) is treated as singular, whatever decomposition Eigen picks. True if no pivot is small without being zero, and for every matrix well conditioned against the threshold (a condition on the matrix alone); in any case the result is the inverse of a matrix within 1e-6 of the longest column."
  },
  {
   "property": "C157",
   "status": "partial",
   "theorems": [
    "C157_left_null_partial",
    "C157_conditioned_partial",
    "C157_wide_refuted",
    "C157_tall_refuted",
    "C157_forced_partial",
    "C157_forced_refuted"
   ],
   "note": "False for matrices with more columns than rows (block outside of Q, undefined), with fewer (V2 has too few columns to multiply A), and for a forced rank other than the rank. True for square matrices of clear rank."
  },
  {
   "property": "C158",
   "status": "partial",
   "theorems": [
    "C158_kernel_partial",
    "C158_conditioned_partial",
    "C158_threshold_refuted",
    "C158_empty_refuted"
   ],
   "note": "False below the threshold and undefined for a matrix without columns. True for matrices of clear rank, in particular well conditioned ones."
  },
  {
   "property": "C159",
   "status": "partial",
   "theorems": [
    "C159_freedom_partial",
    "C159_no_freedom_refuted"
   ],
   "note": "False: once a level that is not the last leaves no freedom, the next getNullSpace gets a matrix without columns, which is undefined. True, with exact rank decisions, if every level but the last leaves some freedom."
  },
  {
   "property": "C16",
   "status": "proved",
   "theorems": [
    "C16_contact_null_dimension"
   ],
   "note": "The inverted matrix is invertible iff the base block of the last six contact rows is."
  },
  {
   "property": "C160",
   "status": "proved",
   "theorems": [
    "C160_inverse",
    "C160_robot",
    "C160_lower_triangle"
   ],
   "note": "In exact arithmetic with exact square roots, for the column by column algorithm of Eigen."
  },
  {
   "property": "C161",
   "status": "partial",
   "theorems": [
    "C161_only_posdef_partial",
    "C161_always_posdef_partial",
    "C161_massless_partial",
    "C161_indefinite_refuted",
    "C161_singular_refuted"
   ],
   "note": "False: for diag(1,-1), and for the singular [1 1; 1 1], a positive definite matrix that is not the inverse is stored and nothing is reported. For symmetric matrices the result is the inverse exactly when the matrix is positive definite, which is exactly what the unread info() says; with a motion that moves no mass it never is."
  },
  {
   "property": "C162",
   "status": "proved",
   "theorems": [
    "C162_represents",
    "C162_only"
   ],
   "note": "In exact arithmetic with exact square roots, for the published algorithm of Eigen."
  },
  {
   "property": "C163",
   "status": "partial",
   "theorems": [
    "C163_positive_partial",
    "C163_negative_refuted",
    "C163_jump_refuted"
   ],
   "note": "False: w is negative for a turn of -143 degrees about the vertical axis, and arbitrarily close orientations about 120 degrees from the reference get quaternions of opposite sign. True while the trace is positive (less than 120 degrees)."
  },
  {
   "property": "C164",
   "status": "partial",
   "theorems": [
    "C164_overwritten_refuted",
    "C164_ignored_partial",
    "C164_mode_partial"
   ],
   "note": "False: SolveQPoases overwrites all options. For every history and every solver both calls can be left out without changing anything; equalities are treated exactly in the first attempt of a solve with MPC set. The tolerance is never used. Rests on setToMPC and setToReliable of qpOASES assigning every option."
  },
  {
   "property": "C165",
   "status": "proved",
   "theorems": [
    "C165_same_answers",
    "C165_first_level"
   ],
   "note": "As in C32: exact arithmetic, symmetric additional cost, no coefficient at or below the threshold of sparseView."
  },
  {
   "property": "C166",
   "status": "partial",
   "theorems": [
    "C166_again_refuted",
    "C166_stale_partial",
    "C166_first_partial",
    "C166_update_partial",
    "C166_no_init_partial",
    "C166_first_level_partial"
   ],
   "note": "False: a second solve with init = true, the default, answers for the problem loaded by the first whatever the matrices now are (setHessianMatrix, setLinearConstraintsMatrix and initSolver of OsqpEigen refuse when already done, and their return values are ignored). True for the first solve with init and for all later solves without it, sizes unchanged. Without any init nothing is solved. Rests on the documented behaviour of OsqpEigen."
  },
  {
   "property": "C167",
   "status": "partial",
   "theorems": [
    "C167_copy_refuted",
    "C167_updates_partial"
   ],
   "note": "False: copies share the solver objects through osqp_solver_, so of two copies solved with init the second gets the answers of the first. Solves without init do not disturb each other."
  },
  {
   "property": "C168",
   "status": "proved",
   "theorems": [
    "C168_twist",
    "C168_wrench",
    "C168_power",
    "C168_compose",
    "C168_inverse",
    "C168_momentum"
   ],
   "note": "Exact arithmetic."
  },
  {
   "property": "C169",
   "status": "partial",
   "theorems": [
    "C169_add_refuted",
    "C169_defined",
    "C169_recorded",
    "C169_wf_partial",
    "C169_delete_partial"
   ],
   "note": "False: AddLink with a revolute joint appends to link_ but not to joint_, so that the next UpdateKinematics writes past the end of joint_, whatever the tree. True of every well formed tree, in particular after every DeleteLink."
  },
  {
   "property": "C17",
   "status": "proved",
   "theorems": [
    "C17_null_torque_changes_internal_force_only",
    "C17_null_basis_irrelevant"
   ],
   "note": ""
  },
  {
   "property": "C170",
   "status": "partial",
   "theorems": [
    "C170_floating_refuted",
    "C170_leftover_refuted",
    "C170_added_partial"
   ],
   "note": "False: joint_ and total_mass_ are not extended, so that DeleteLink of the new link and the next UpdateKinematics are undefined; and even with both repaired DeleteLink removes one of the six degrees of freedom and leaves RBDL five massless bodies. True: the link is appended under its parent with six degrees of freedom and no other link changes but for the list of children of the parent."
  },
  {
   "property": "C171",
   "status": "partial",
   "theorems": [
    "C171_active_feet_refuted",
    "C171_second_contact_partial"
   ],
   "note": "False: cc_[0] and cc_[1] are used whatever their activation; on a robot with two legs of six joints and an inactive contact registered between the feet the force becomes no split of the wrench. True for every robot: the acceleration and the net wrench are kept, and the second foot gets the share of a foot standing where the second registered contact is. The refutation is an instance of the hypotheses of the partial theorem."
  },
  {
   "property": "C172",
   "status": "partial",
   "theorems": [
    "C172_custom_refuted",
    "C172_links_lost_partial",
    "C172_no_links_partial"
   ],
   "note": "False when the custom task has a link: UpdateTaskSpace zeroes J_task_ of every task with links and fills no block of a custom one, so the Jacobian becomes zero while the reference is kept. True of tasks without links, over any number of updates."
  },
  {
   "property": "C173",
   "status": "partial",
   "theorems": [
    "C173_reference_refuted",
    "C173_rest_partial",
    "C173_by_name_partial"
   ],
   "note": "False of the reference: AddTaskLink sets all of f_star_ to zero, so a reference given with SetTaskSpace before is lost. Everything else is as stated: every other field of the task and every other task is unchanged, and a link that is already used changes nothing."
  },
  {
   "property": "C18",
   "status": "proved",
   "theorems": [
    "C18_task_acceleration"
   ],
   "note": ""
  },
  {
   "property": "C19",
   "status": "proved",
   "theorems": [
    "C19_top_priority_undisturbed",
    "C19_top_priority_undisturbed_any_reference"
   ],
   "note": ""
  },
  {
   "property": "C20",
   "status": "partial",
   "theorems": [
    "C20_strict_priority_refuted",
    "C20_decoupled_levels_partial"
   ],
   "note": "False of the code: refuted with a three-task witness. The decoupled case is proved."
  },
  {
   "property": "C21",
   "status": "proved",
   "theorems": [
    "C21_task_inverse_consistent"
   ],
   "note": ""
  },
  {
   "property": "C22",
   "status": "proved",
   "theorems": [
    "C22_feasible_iff_admissible",
    "C22_success_is_admissible"
   ],
   "note": ""
  },
  {
   "property": "C23",
   "status": "proved",
   "theorems": [
    "C23_least_modification"
   ],
   "note": ""
  },
  {
   "property": "C24",
   "status": "proved",
   "theorems": [
    "C24_hierarchy_admissible",
    "C24_torque_left_behind"
   ],
   "note": ""
  },
  {
   "property": "C25",
   "status": "proved",
   "theorems": [
    "C25_redistribution_admissible",
    "C25_acceleration_unchanged",
    "C25_no_redundancy"
   ],
   "note": ""
  },
  {
   "property": "C26",
   "status": "partial",
   "theorems": [
    "C26_failure_changes_command_refuted"
   ],
   "note": "False of the code: a failed redistribution QP zeroes torque_contact_, so every failure with a non-zero torque_contact_ changes the command."
  },
  {
   "property": "C27",
   "status": "proved",
   "theorems": [
    "C27_net_wrench_preserved"
   ],
   "note": ""
  },
  {
   "property": "C28",
   "status": "partial",
   "theorems": [
    "C28_force_produced_partial",
    "C28_defined_iff",
    "C28_second_call_undoes_refuted",
    "C28_stale_contact_torque_refuted"
   ],
   "note": "Holds when torque_contact_ is zero on entry (C28_force_produced_partial). False otherwise: the input torque includes torque_contact_ but the result overwrites it, so a second call takes the redistribution back."
  },
  {
   "property": "C29",
   "status": "proved",
   "theorems": [
    "C29_null_space_bases"
   ],
   "note": "getNullSpace assumed to return a kernel basis (null_space_ok); shown satisfiable by Gaussian elimination"
  },
  {
   "property": "C30",
   "status": "proved",
   "theorems": [
    "C30_residuals_kept",
    "C30_defined"
   ],
   "note": "for any number of levels and any solver answers"
  },
  {
   "property": "C31",
   "status": "partial",
   "theorems": [
    "C31_inequalities_kept_partial",
    "C31_inequalities_kept_exact",
    "C31_recursive_feasibility",
    "C31_dropped_entry_refuted"
   ],
   "note": "as stated it is false: sparseView(1E-5) drops coefficients up to 1e-17 before the problem reaches OSQP. Proved: with an error bound of 1e-17 * |u|_1, exactly when nothing is dropped, and recursive feasibility"
  },
  {
   "property": "C32",
   "status": "proved",
   "theorems": [
    "C32_level_optimal",
    "C32_setters_store"
   ],
   "note": "includes the additional quadratic cost when H is symmetric; assumes no coefficient is dropped by sparseView"
  },
  {
   "property": "C33",
   "status": "proved",
   "theorems": [
    "C33_normalisation"
   ],
   "note": "over real closed fields (square roots)"
  },
  {
   "property": "C34",
   "status": "partial",
   "theorems": [
    "C34_data_partial",
    "C34_defined",
    "C34_hotstart_after_init",
    "C34_result",
    "C34_cycle",
    "C34_upper_bound_only_refuted",
    "C34_hotstart_after_failure_refuted"
   ],
   "note": "proved for every call sequence without UpdateSubjectToAxUb (the library never calls it) and for the library usage pattern; with it the lower bound is an unwritten array; after a failed initialisation the next solve hot-starts"
  },
  {
   "property": "C35",
   "status": "proved",
   "theorems": [
    "C35_quintic"
   ],
   "note": ""
  },
  {
   "property": "C36",
   "status": "proved",
   "theorems": [
    "C36_rest_to_rest"
   ],
   "note": ""
  },
  {
   "property": "C37",
   "status": "proved",
   "theorems": [
    "C37_cubic"
   ],
   "note": ""
  },
  {
   "property": "C38",
   "status": "proved",
   "theorems": [
    "C38_elementary",
    "C38_about_axis"
   ],
   "note": ""
  },
  {
   "property": "C39",
   "status": "proved",
   "theorems": [
    "C39_rotation",
    "C39_interpolates"
   ],
   "note": ""
  },
  {
   "property": "C40",
   "status": "partial",
   "theorems": [
    "C40_zero_odd_axis_partial",
    "C40_zero_set_partial",
    "C40_vanishes_only_at_target_refuted"
   ],
   "note": "everything holds except the last clause: the error also vanishes at half turns; its zero set is characterised exactly"
  },
  {
   "property": "C41",
   "status": "proved",
   "theorems": [
    "C41_skew_is_cross_product"
   ],
   "note": ""
  },
  {
   "property": "C42",
   "status": "proved",
   "theorems": [
    "C42_merge"
   ],
   "note": ""
  },
  {
   "property": "C43",
   "status": "proved",
   "theorems": [
    "C43_segment",
    "C43_orderings"
   ],
   "note": ""
  },
  {
   "property": "C44",
   "status": "proved",
   "theorems": [
    "C44_com_inertia"
   ],
   "note": ""
  },
  {
   "property": "C45",
   "status": "proved",
   "theorems": [
    "C45_virtual_inertia"
   ],
   "note": ""
  },
  {
   "property": "C46",
   "status": "proved",
   "theorems": [
    "C46_angular_momentum",
    "C46_six_rows",
    "C46_link_com",
    "C46_linear_momentum"
   ],
   "note": ""
  },
  {
   "property": "C47",
   "status": "proved",
   "theorems": [
    "C47_unit_gain",
    "C47_linear",
    "C47_poles",
    "C47_converges"
   ],
   "note": ""
  },
  {
   "property": "C48",
   "status": "partial",
   "theorems": [
    "C48_raw_history_refuted",
    "C48_output_partial",
    "C48_converges_partial"
   ],
   "note": "false of the code: calc2lpf passes the oldest output where the oldest input belongs; what it computes instead is stated, and it still settles below half the sampling rate"
  },
  {
   "property": "C49",
   "status": "proved",
   "theorems": [
    "C49_delete",
    "C49_returns",
    "C49_by_name",
    "C49_name_found"
   ],
   "note": "for runs that return; they do when no task is on the link or a later one"
  },
  {
   "property": "C50",
   "status": "partial",
   "theorems": [
    "C50_contact_refuted",
    "C50_task_refuted",
    "C50_unrelated_task_refuted",
    "C50_last_task_refuted",
    "C50_earlier_partial"
   ],
   "note": "false of the code: contact ids are never shifted, task ids only when some task was removed, unrelated tasks can be removed, and removing the last task reads past the end; it holds when all contacts and tasks are on earlier links"
  },
  {
   "property": "C51",
   "status": "partial",
   "theorems": [
    "C51_refuted",
    "C51_reload_refuted",
    "C51_delete_zeroes_partial"
   ],
   "note": "false of the code: the limit becomes zero and stays in force; shown for every successful deletion"
  },
  {
   "property": "C52",
   "status": "partial",
   "theorems": [
    "C52_total_mass_refuted",
    "C52_unset_frame_refuted",
    "C52_bodies_partial"
   ],
   "note": "false of the code: total_mass_ loses the mass of the link (always), and the call is undefined before the first UpdateKinematics; the link masses themselves are conserved and the parent body is the union"
  },
  {
   "property": "C53",
   "status": "partial",
   "theorems": [
    "C53_partition_iff_partial",
    "C53_dimensions_partial",
    "C53_shared_joint_refuted",
    "C53_below_contact_refuted"
   ],
   "note": "false in general; the exact condition is proved: no link but the base carries two contacts and nothing without contact hangs below a contact"
  },
  {
   "property": "C54",
   "status": "partial",
   "theorems": [
    "C54_projection_partial",
    "C54_order_refuted"
   ],
   "note": "proved for contact chains whose coordinates come first, with the non-contact bodies hanging from the base; false when a non-contact joint precedes a contact joint"
  },
  {
   "property": "C55",
   "status": "partial",
   "theorems": [
    "C55_lower_limit_partial",
    "C55_upper_limit_refuted",
    "C55_limit_size_refuted"
   ],
   "note": "False in general: the rows of the upper torque limits are overwritten by those of the lower limits (both are written to rows 0..m-1), so an optimal answer may exceed an upper limit although the input torque did not (refuted by witness). Proved: the lower limits and the contact cones hold, inputs unchanged, zero on failure. With limits set the call is undefined unless torque_limit_ (model_dof_ entries) has reduced_model_dof_ entries. Only the branch hqp = true."
  },
  {
   "property": "C56",
   "status": "proved",
   "theorems": [
    "C56_ill_sized_ignored",
    "C56_well_sized_stored",
    "C56_stored_again"
   ],
   "note": "A call that completes stores the vectors; the outcome None (singular inverse, zero mass, no link) is excluded in the second theorem."
  },
  {
   "property": "C57",
   "status": "proved",
   "theorems": [
    "C57_position_law",
    "C57_rotation_modes"
   ],
   "note": ""
  },
  {
   "property": "C58",
   "status": "partial",
   "theorems": [
    "C58_link_frames_partial",
    "C58_custom_point_partial",
    "C58_custom_frame_refuted"
   ],
   "note": "false of the code: the custom point is not rotated into the world frame in the velocity; the other frames are right"
  },
  {
   "property": "C59",
   "status": "partial",
   "theorems": [
    "C59_source_kept_partial",
    "C59_source_flags_overwritten",
    "C59_source_kept_refuted"
   ],
   "note": "Refuted: if the two robots have different numbers of contacts the loop at src/dwbc.cpp:1743 writes the target flags (or uninitialised ones) into the source. Holds when the numbers agree; nothing but the flags is ever changed."
  },
  {
   "property": "C60",
   "status": "partial",
   "theorems": [
    "C60_same_task_inverse_partial",
    "C60_two_levels_partial",
    "C60_levels_alone_partial",
    "C60_priority_refuted",
    "C60_limits_refuted",
    "C60_contact_torque_refuted",
    "C60_no_task_refuted"
   ],
   "note": "false of the code: every level is checked against gravity alone, the contact redistribution is not commanded, null-space matrices are not chained; holds level by level and, for the top priority, with at most two levels"
  },
  {
   "property": "C61",
   "status": "partial",
   "theorems": [
    "C61_rejected_call_refuted"
   ],
   "note": "False of the code: a rejected SetContact after a further AddContactConstraint reads the uninitialised `contact` flag of the new entry. The defined case is C01_rejected."
  },
  {
   "property": "C62",
   "status": "partial",
   "theorems": [
    "C62_wrong_size_refuted"
   ],
   "note": "False of the code for every task and every reference of another size."
  },
  {
   "property": "C63",
   "status": "partial",
   "theorems": [
    "C63_priority_ignored_refuted",
    "C63_by_name_partial"
   ],
   "note": "False for the overloads taking a link index or a dimension (the priority is ignored). Proved for the overload taking a link name."
  },
  {
   "property": "C64",
   "status": "partial",
   "theorems": [
    "C64_bad_link_index_refuted"
   ],
   "note": "False of the code for every unused out-of-range index."
  },
  {
   "property": "C65",
   "status": "partial",
   "theorems": [
    "C65_single_support_refuted"
   ],
   "note": "False of the code: NwJw stays model_dof x model_dof while contact_qp_ is empty."
  },
  {
   "property": "C66",
   "status": "proved",
   "theorems": [
    "C66_limits_met_when_possible"
   ],
   "note": ""
  },
  {
   "property": "C67",
   "status": "partial",
   "theorems": [
    "C67_defined_iff",
    "C67_tandem_stance_refuted"
   ],
   "note": "False of the code: 0/0 exactly when the net moment about both feet has no x component (C67_defined_iff)."
  },
  {
   "property": "C68",
   "status": "partial",
   "theorems": [
    "C68_active_feet_refuted"
   ],
   "note": "False of the code: cc_[0] and cc_[1] are used whatever their activation."
  },
  {
   "property": "C69",
   "status": "partial",
   "theorems": [
    "C69_heading_frame_refuted"
   ],
   "note": "False of the code: rpy = eulerAngles(2,1,0) puts yaw in rpy(0), the redistribution removes rpy(2)."
  },
  {
   "property": "C70",
   "status": "partial",
   "theorems": [
    "C70_cost_vector_ignored_refuted"
   ],
   "note": "false of the code: g_ is stored and never read"
  },
  {
   "property": "C71",
   "status": "partial",
   "theorems": [
    "C71_weights_ignored_refuted",
    "C71_first_level_weighted"
   ],
   "note": "false of the code: V_ and W_ are ignored by solveSequential; the separate entry point solvefirst does use the weights of level 0 (C71_first_level_weighted)"
  },
  {
   "property": "C72",
   "status": "partial",
   "theorems": [
    "C72_resolve_same_problem",
    "C72_solve_leaves_ready",
    "C72_null_space_changed_refuted"
   ],
   "note": "proved while the null-space sizes stay; if one grows the block writes go out of range"
  },
  {
   "property": "C73",
   "status": "partial",
   "theorems": [
    "C73_retry_budget_refuted"
   ],
   "note": "false of the code: the budget is ten times the iterations already performed"
  },
  {
   "property": "C74",
   "status": "partial",
   "theorems": [
    "C74_axis_transform_partial",
    "C74_opposite_refuted"
   ],
   "note": "proved for vectors that are not opposite; for opposite vectors the result is minus the identity"
  },
  {
   "property": "C75",
   "status": "partial",
   "theorems": [
    "C75_base_refuted",
    "C75_com_refuted"
   ],
   "note": "false of the code: undefined in every such call"
  },
  {
   "property": "C76",
   "status": "partial",
   "theorems": [
    "C76_fixed_names_refuted",
    "C76_link_names_partial"
   ],
   "note": "false of the code for bodies attached by a fixed joint; holds for links"
  },
  {
   "property": "C77",
   "status": "partial",
   "theorems": [
    "C77_joint_id_refuted",
    "C77_link_num"
   ],
   "note": "false of the code"
  },
  {
   "property": "C78",
   "status": "partial",
   "theorems": [
    "C78_add_revolute_partial",
    "C78_add_revolute_refuted"
   ],
   "note": "false of the code for every such call: no joint entry, no mass; only tree shape and RBDL edit agree"
  },
  {
   "property": "C79",
   "status": "partial",
   "theorems": [
    "C79_init_partial",
    "C79_reload_refuted",
    "C79_massless_refuted"
   ],
   "note": "proved for the first load when all bodies past the base have mass; false for reloads (joints are appended) and with massless bodies in between"
  },
  {
   "property": "C80",
   "status": "partial",
   "theorems": [
    "C80_fresh_partial",
    "C80_custom_partial",
    "C80_stale_flag_refuted"
   ],
   "note": "false of the code: flags are only ever set; holds for flags that were clear"
  },
  {
   "property": "C81",
   "status": "partial",
   "theorems": [
    "C81_null_matrix_partial",
    "C81_first_noncontact_refuted"
   ],
   "note": "false of the code: a non-contact task in first place makes it read ts_[-1]; otherwise all accesses are in range"
  },
  {
   "property": "C82",
   "status": "partial",
   "theorems": [
    "C82_contact_partial",
    "C82_few_contacts_refuted"
   ],
   "note": "proved for c <= contact_dof_ <= c + 6 (c contact-chain joints); false with fewer contact coordinates than contact-chain joints"
  },
  {
   "property": "C83",
   "status": "partial",
   "theorems": [
    "C83_gravity_partial",
    "C83_few_joints_refuted"
   ],
   "note": "proved under the conditions of C54 and C82; with fewer than six non-contact joints the reduced inertia is singular for every robot"
  },
  {
   "property": "C84",
   "status": "partial",
   "theorems": [
    "C84_distribution_partial",
    "C84_order_refuted"
   ],
   "note": "False when the contact joints do not come first among the joints (C84_order_refuted: the torque of the leg is applied to an arm joint). Proved under the conditions of C54 and for contacts on the contact chains."
  },
  {
   "property": "C85",
   "status": "partial",
   "theorems": [
    "C85_orientation_partial",
    "C85_small_turn_refuted"
   ],
   "note": "False for two different orientations whose quaternions are closer than Eigen epsilon: slerp then interpolates linearly and the reference is not a rotation (C85_small_turn_refuted). Proved in all other cases."
  },
  {
   "property": "C86",
   "status": "partial",
   "theorems": [
    "C86_position_kept_partial",
    "C86_rotation_stretches_position_refuted"
   ],
   "note": "false of the code: the times are shared; proved when later calls leave the times alone"
  },
  {
   "property": "C87",
   "status": "partial",
   "theorems": [
    "C87_rot_feedforward_refuted",
    "C87_end_twist_refuted"
   ],
   "note": "false of the code: neither enters"
  },
  {
   "property": "C88",
   "status": "partial",
   "theorems": [
    "C88_regulation_refuted",
    "C88_regulation_no_effect_refuted"
   ],
   "note": "false of the code: the flag and the bounds are never read"
  },
  {
   "property": "C89",
   "status": "proved",
   "theorems": [
    "C89_centroidal"
   ],
   "note": "RBDL is an argument: its matrix is assumed to be symmetric with quadratic form twice the kinetic energy, and the links to follow the floating base rigidly."
  },
  {
   "property": "C90",
   "status": "partial",
   "theorems": [
    "C90_no_update_refuted"
   ],
   "note": "Refuted for every well-sized input: A_ is zeroed before the flag is tested, so com_pos degenerates to the base position and SI_body_.inverse() inverts a singular matrix. tests/test_thread.cpp:425 calls it this way."
  },
  {
   "property": "C91",
   "status": "partial",
   "theorems": [
    "C91_com_vel_zero",
    "C91_com_vel_refuted"
   ],
   "note": "Refuted: com_vel is set to zero and never written again (link_.back().v holds the velocity, see C89)."
  },
  {
   "property": "C92",
   "status": "proved",
   "theorems": [
    "C92_target",
    "C92_defined_iff"
   ],
   "note": "The contact flags are the subject of C59. The two objects are assumed distinct."
  },
  {
   "property": "C93",
   "status": "proved",
   "theorems": [
    "C93_copy_then_set_contact"
   ],
   "note": ""
  },
  {
   "property": "C94",
   "status": "partial",
   "theorems": [
    "C94_counts_refuted",
    "C94_stale_counts_refuted"
   ],
   "note": "Refuted: the counters are not copied; on a fresh target they stay uninitialised, on a used one stale. SetContact repairs this (C93)."
  },
  {
   "property": "C95",
   "status": "partial",
   "theorems": [
    "C95_writeback_partial",
    "C95_writeback_refuted",
    "C95_out_of_range_refuted"
   ],
   "note": "False in general: contact_dof_ entries are copied instead of the co_dof contact joints; refuted with six contact joints and two feet (a virtual-joint torque is commanded to joint 6), and undefined with fewer torques than contact_dof_. Proved when the number of contact joints equals contact_dof_ and they come first."
  },
  {
   "property": "C96",
   "status": "proved",
   "theorems": [
    "C96_least_tangential"
   ],
   "note": "The solver is an oracle assumed optimal; constraints are those of the problem actually built (see C55)."
  },
  {
   "property": "C97",
   "status": "proved",
   "theorems": [
    "C97_configured_hierarchy"
   ],
   "note": "getNullSpace assumed to return a kernel basis; inertia assumed invertible with A_inv_ its inverse."
  },
  {
   "property": "C98",
   "status": "proved",
   "theorems": [
    "C98_base_dynamics",
    "C98_defined"
   ],
   "note": "For any solver oracle."
  },
  {
   "property": "C99",
   "status": "partial",
   "theorems": [
    "C99_torque_within_200_partial",
    "C99_limits_ignored",
    "C99_user_limit_refuted"
   ],
   "note": "False in general: ConfigureLQP never reads torque_limit_ (proved for all robots), and an exact solve exceeds the limit set (witness). Proved: the hard-coded bound 200 holds at every level if the solver finds admissible points where there are any and no coefficient is dropped."
  }
 ]
}