{"id": "C01", "title": "Contact activation keeps the contact sizes in step with the registered contacts", "statement": "After any history of AddContactConstraint, ClearContactConstraint and SetContact calls in which every registered contact is a plane contact, an accepted SetContact(flags) leaves the i-th registered contact active exactly when the i-th flag is given and true (contacts beyond the flags are deactivated), contact_link_num_ equals the number of active contacts and contact_dof_ equals the sum of their degrees of freedom; SetContact with more flags than registered contacts, when it is defined at all (see C61), leaves every contact, contact_link_num_ and contact_dof_ as they were.", "quantifier": "every history of contact-registry calls, every number of contacts, every flag vector", "why_tests_cant": "The state space is unbounded (any number of contacts, any interleaving of add/clear/set); a test fixes one history.", "anchors": ["include/dwbc.h: RobotData::SetContact", "src/dwbc.cpp: RobotData::AddContactConstraint, ClearContactConstraint, UpdateContactConstraint", "src/contact_constraint.cpp: ContactConstraint::ContactConstraint"]}
{"id": "C02", "title": "A link never carries two contact constraints and name lookup is exact", "statement": "Whatever sequence of registry calls is made, no two registered contacts refer to the same link; adding a contact by name selects the first link whose name equals the given one up to ASCII case, an unknown name changes nothing, and a rejected duplicate changes nothing.", "quantifier": "every sequence of AddContactConstraint (by index or by name) / ClearContactConstraint calls, every link table and every name", "why_tests_cant": "Quantifies over all call sequences and all strings.", "anchors": ["src/dwbc.cpp: RobotData::AddContactConstraint (both overloads)", "src/dwbc.cpp: RobotData::getLinkID"]}
{"id": "C03", "title": "Task registry: one solver per task, dense hierarchy numbers, no link in two tasks", "statement": "Whatever sequence of AddTaskSpace (three overloads), AddTaskLink and ClearTaskSpace calls is made (with existing priorities for AddTaskLink), there is exactly one QP solver per task, the task stored at position i has hierarchy number i, and no link belongs to two registered tasks or twice to the same one; a request that names an unknown link or a link already used changes nothing.", "quantifier": "every sequence of task-registry calls", "why_tests_cant": "Unbounded histories of registry operations.", "anchors": ["src/dwbc.cpp: RobotData::AddTaskSpace, AddTaskLink, ClearTaskSpace, AddQP, ClearQP", "src/task.cpp: TaskSpace::TaskSpace, TaskSpace::AddTaskLink"]}
{"id": "C04", "title": "Task dimension equals the sum of the dimensions of its links", "statement": "For every task built from links with documented link modes, by any sequence of registry calls, task_dof_ is the sum over its links of 6 (6D modes) or 3 (position/rotation modes), link_size_ is the number of its links and f_star_ has task_dof_ entries.", "quantifier": "every sequence of task-registry calls with documented link modes", "why_tests_cant": "Unbounded histories.", "anchors": ["src/task.cpp: TaskLink::TaskLink, TaskSpace::TaskSpace, TaskSpace::AddTaskLink"]}
{"id": "C05", "title": "Task Jacobian rows of different links never overlap and cover the task", "statement": "UpdateTaskSpace writes, for the j-th link of a link task, its Jacobian rows into rows [d_0+..+d_{j-1}, d_0+..+d_j) of J_task_; these blocks are disjoint, in bounds, cover all task_dof_ rows, and no other row of J_task_ is touched.", "quantifier": "every task with any number of links and modes", "why_tests_cant": "Any number of links with any mixture of modes.", "anchors": ["src/dwbc.cpp: RobotData::UpdateTaskSpace"]}
{"id": "C06", "title": "Contact Jacobian stacks exactly the active contacts in order", "statement": "After SetContact, rows of J_C are the concatenation, in registration order, of the Jacobians of exactly the active contacts and J_C has contact_dof_ rows; no write leaves the matrix.", "quantifier": "every registry state reachable with plane contacts, every flag vector", "why_tests_cant": "Any number of contacts and any activation pattern.", "anchors": ["src/dwbc.cpp: RobotData::UpdateContactConstraint", "include/dwbc.h: RobotData::SetContact"]}
{"id": "C07", "title": "SetTaskSpace rejects an out-of-range priority", "statement": "SetTaskSpace called with a priority that does not exist reports an error and changes nothing; called with an existing one it replaces f_star_ (and J_task_) of exactly that task.", "quantifier": "every registry state and every priority", "why_tests_cant": "All states and all indices, including the memory-unsafe ones a test cannot observe reliably.", "anchors": ["src/dwbc.cpp: RobotData::SetTaskSpace"]}
{"id": "C08", "title": "The contact constraint matrix is exactly the friction/ZMP/yaw cone of every active contact", "statement": "For plane contacts, getContactConstraintMatrix() * F <= 0 holds row by row exactly when, for each active contact with local wrench (rotm^T f, rotm^T m), |fx|,|fy| <= -mu fz, |mz| <= -mu_z fz, |my| <= -l_x fz, |mx| <= -l_y fz (the library's sign convention makes a pressing force have fz <= 0).", "quantifier": "every number of plane contacts, every activation pattern, every orientation, plate size, friction ratio and every stacked force vector F", "why_tests_cant": "Continuous inputs and unbounded number of contacts.", "anchors": ["src/dwbc.cpp: RobotData::getContactConstraintMatrix", "src/wbd.cpp: GetZMPConstMatrix, GetForceConstMatrix", "src/contact_constraint.cpp: GetZMPConstMatrix4x6, GetForceConstMatrix6x6"]}
{"id": "C09", "title": "A force accepted by the constraint matrix has its centre of pressure inside the plate", "statement": "If the constraint of an active plane contact holds and fz < 0 then the local centre of pressure (-my/fz, mx/fz) lies in the rectangle |x| <= l_x, |y| <= l_y; if a friction ratio or a plate half-length is positive, the constraint cannot hold with a pulling force (fz > 0).", "quantifier": "every wrench, plate size and friction ratio", "why_tests_cant": "Continuous domain.", "anchors": ["src/wbd.cpp: GetZMPConstMatrix, GetForceConstMatrix", "src/dwbc.cpp: RobotData::getContactConstraintMatrix"]}
{"id": "C10", "title": "Point and line contacts can be used", "statement": "Activating contacts and building the contact constraint matrix only writes inside the matrices it allocated, for every mixture of the contact types the library documents (plane, line, point).", "quantifier": "every list of documented contact types and every activation pattern", "why_tests_cant": "The out-of-bounds write is undefined behaviour; tests with plane contacts only never see it.", "anchors": ["src/dwbc.cpp: RobotData::getContactConstraintMatrix, CalcSingleTaskTorqueWithQP", "src/contact_constraint.cpp: ContactConstraint::ContactConstraint, Update"]}
{"id": "C11", "title": "getZMP is the force-weighted average of the contact centres of pressure", "statement": "For any activation pattern, getZMP reads, for the k-th active contact, the k-th 6-block of the stacked force vector returned by getContactForce, and its horizontal part is the average of the contact ZMPs weighted by their vertical force; it stays inside any half-plane containing all contact ZMPs when all vertical forces press.", "quantifier": "every activation pattern, all positions and forces", "why_tests_cant": "The indexing claim must hold for every activation pattern; the averaging claim over the reals.", "anchors": ["src/dwbc.cpp: RobotData::getZMP"]}
{"id": "C12", "title": "Computed contact force and acceleration solve the constrained equation of motion, uniquely", "statement": "With a symmetric positive definite mass matrix and a full row rank contact Jacobian, for every torque the force f = getContactForce(tau) and acceleration a = A_inv_N_C (S^T tau - G) satisfy A a + J_C^T f + G = S^T tau and J_C a = 0, and no other pair does.", "quantifier": "every number of joints and contact dimensions, every A, J_C, G, tau over any ordered field", "why_tests_cant": "All dimensions and all real matrices.", "anchors": ["src/wbd.cpp: CalculateContactConstraint, CalculateContactForce, CalculateGravityCompensation", "src/dwbc.cpp: RobotData::getContactForce, CalcContactConstraint, CalcGravCompensation"]}
{"id": "C13", "title": "The contact projector is a projector onto admissible motions", "statement": "N_C is idempotent, N_C J_C^T = 0, J_C A_inv N_C = 0, J_C_INV_T J_C^T = I, and A_inv_N_C and W are symmetric positive semidefinite.", "quantifier": "every A symmetric positive definite and J_C of full row rank, all dimensions", "why_tests_cant": "All dimensions and matrices.", "anchors": ["src/wbd.cpp: CalculateContactConstraint"]}
{"id": "C14", "title": "Gravity compensation holds the robot still", "statement": "With the torque returned by CalcGravCompensation the constrained acceleration of every joint is zero; if moreover the contacts determine the base motion (base columns of J_C have rank 6) the whole acceleration is zero and the contact forces balance gravity: J_C^T f + G = S^T tau.", "quantifier": "every configuration: all A, J_C, G, all dimensions", "why_tests_cant": "All dimensions and matrices; includes singular W.", "anchors": ["src/wbd.cpp: CalculateGravityCompensation, PinvCODWB", "src/dwbc.cpp: RobotData::CalcGravCompensation"]}
{"id": "C15", "title": "Gravity torque is the least-norm torque that holds the joints still", "statement": "Among all torques for which the constrained joint acceleration is zero, the one returned by CalcGravCompensation has the smallest Euclidean norm, and is the only one with that norm.", "quantifier": "every A, J_C, G, all dimensions and all competing torques", "why_tests_cant": "Optimality over an infinite set.", "anchors": ["src/wbd.cpp: CalculateGravityCompensation, PinvCODWB"]}
{"id": "C16", "title": "Contact null-space dimension: CalcContactConstraint succeeds on well-posed contacts", "statement": "If A is positive definite, J_C has full row rank and its base columns have rank 6 then W has exactly (contact_dof - 6) null directions, so with exact rank determination CalcContactConstraint returns 1; if in addition the base block of the last six contact rows is invertible then the matrix inverted for NwJw is invertible.", "quantifier": "every A, J_C, all dimensions with contact_dof > 6", "why_tests_cant": "All dimensions and matrices.", "anchors": ["src/wbd.cpp: CalculateContactConstraint, PinvCODWB"]}
{"id": "C17", "title": "Contact null-space torques change only internal contact forces, by exactly the requested amount", "statement": "A torque NwJw*x causes no acceleration of joints or base (hence of no task), and changes the first (contact_dof-6) contact force components by exactly x; the resulting contact-force change exerts no net wrench on the base; NwJw does not depend on which basis of the null space the factorisation returned.", "quantifier": "every x, A, J_C, null-space basis, all dimensions", "why_tests_cant": "All dimensions and matrices, and all admissible outputs of the factorisation.", "anchors": ["src/wbd.cpp: CalculateContactConstraint"]}
{"id": "C18", "title": "A task torque realises exactly the commanded task acceleration", "statement": "If the contacts determine the base motion and J_task A_inv N_C J_task^T is invertible, then commanding gravity torque plus J_kt Lambda f* yields the constrained task acceleration J_task a = f*, for every f*.", "quantifier": "every task Jacobian, f*, A, J_C, G, all dimensions", "why_tests_cant": "All dimensions and matrices.", "anchors": ["src/wbd.cpp: CalculateJKT, CalculateTaskNullSpace", "src/task.cpp: TaskSpace::CalcJKT", "src/dwbc.cpp: RobotData::CalcTaskSpace, CalcTaskControlTorque"]}
{"id": "C19", "title": "Lower-priority torques never disturb the top-priority task", "statement": "For any number of levels, whatever torques the levels 1,2,... produce, the acceleration of the priority-0 task under the torque computed by CalcTaskControlTorque(hqp=false) plus gravity compensation is exactly its f*.", "quantifier": "every number of priority levels, all task Jacobians and references", "why_tests_cant": "Unbounded number of levels; all matrices.", "anchors": ["src/dwbc.cpp: RobotData::CalcTaskSpace, CalcTaskControlTorque", "src/task.cpp: TaskSpace::CalcNullMatrix", "src/wbd.cpp: CalculateTaskNullSpace"]}
{"id": "C20", "title": "Strict priority between every pair of levels", "statement": "For every pair of levels i < k the torque contributed by level k does not change the acceleration of the task of level i.", "quantifier": "every number of levels and all task Jacobians", "why_tests_cant": "A universally quantified claim; one counterexample refutes it, random tests with weakly coupled tasks miss it.", "anchors": ["src/wbd.cpp: CalculateTaskNullSpace", "src/dwbc.cpp: RobotData::CalcTaskSpace, CalcTaskControlTorque"]}
{"id": "C21", "title": "The task Jacobian inverse is dynamically consistent", "statement": "J_kt Lambda J_task A_inv_N_C S^T is idempotent, each level's null matrix built from the identity annihilates its own task, and J_kt Lambda f* is, among all torques that (added to gravity compensation) produce task acceleration f*, one minimising tau^T W tau.", "quantifier": "all task Jacobians, A, J_C, all dimensions", "why_tests_cant": "All dimensions and matrices.", "anchors": ["src/wbd.cpp: CalculateJKT, CalculateTaskNullSpace"]}
{"id": "C22", "title": "A task torque accepted by the level QP respects torque limits and contact constraints", "statement": "Whenever CalcSingleTaskTorqueWithQP reports success and the solver's answer satisfies the constraints it was given, the torque tau = torque_prev + N J_kt Lambda (f* + f*_qp) + NwJw contact_qp obeys |tau_i| <= torque_limit_i (if a limit was set) and getContactForce(tau) satisfies the contact cone of every active plane contact; conversely any (f*_qp, contact_qp) with these two properties is feasible for the QP.", "quantifier": "every solver answer, every number of joints, task dimension, number of plane contacts, all matrices", "why_tests_cant": "Unbounded dimensions; the solver's answer is adversarial.", "anchors": ["src/dwbc.cpp: RobotData::CalcSingleTaskTorqueWithQP"]}
{"id": "C23", "title": "The QP does not alter a task that is already admissible", "statement": "If the unmodified f* (with some contact redistribution) is admissible, every optimal answer of the level QP has f*_qp = 0, so the commanded task acceleration is unchanged; in general f*_qp has the least norm among admissible modifications.", "quantifier": "every admissible configuration and every optimal solver answer", "why_tests_cant": "Optimality over an infinite set.", "anchors": ["src/dwbc.cpp: RobotData::CalcSingleTaskTorqueWithQP"]}
{"id": "C24", "title": "The hierarchical loop ends with an admissible total torque", "statement": "If CalcTaskControlTorque(hqp=true) returns 1 with at least one task then torque_grav_ + torque_task_ + torque_contact_ obeys the torque limits and the contact cone; if it returns 0 the torque_task_ left behind is the sum over the levels that succeeded and torque_contact_ is that of the last successful level (or zero).", "quantifier": "any number of levels, any solver behaviour that meets its constraints on success", "why_tests_cant": "Unbounded number of levels and adversarial solver.", "anchors": ["src/dwbc.cpp: RobotData::CalcTaskControlTorque, CalcSingleTaskTorqueWithQP"]}
{"id": "C25", "title": "Contact redistribution by QP keeps limits, cone and task accelerations", "statement": "When CalcContactRedistribute(hqp=true) returns 1 with more than six contact dimensions, torque_grav_+torque_task_+torque_contact_ obeys torque limits and contact cone, and the constrained acceleration is the same as before the call; when the previous torque was already admissible the optimal change is zero. With at most six contact dimensions it returns 1, clears torque_contact_ and changes nothing else.", "quantifier": "every solver answer meeting its constraints, all matrices and dimensions", "why_tests_cant": "Unbounded dimensions and adversarial solver.", "anchors": ["src/dwbc.cpp: RobotData::CalcContactRedistribute"]}
{"id": "C26", "title": "Failed redistribution leaves the last admissible command in place", "statement": "When CalcContactRedistribute(hqp=true) fails (returns 0) the total torque torque_grav_+torque_task_+torque_contact_ is unchanged.", "quantifier": "every state and solver failure", "why_tests_cant": "Quantifies over all states and failures.", "anchors": ["src/dwbc.cpp: RobotData::CalcContactRedistribute"]}
{"id": "C27", "title": "Two-foot redistribution preserves the net wrench and keeps the split in range", "statement": "ContactRedistributetwomod returns two foot wrenches whose sum of forces and sum of moments about the common origin equal those of the input, with force split eta and 1-eta, eta within [1-eta_cust, eta_cust] whenever eta_cust >= 1/2.", "quantifier": "every pair of foot positions and wrenches for which the intermediate divisions are defined", "why_tests_cant": "Continuous 24-dimensional domain.", "anchors": ["src/wbd.cpp: ContactRedistributetwomod"]}
{"id": "C28", "title": "Two-foot redistribution actually produces the redistributed foot force", "statement": "After CalcContactRedistribute(hqp=false) with two active feet, the contact force of the commanded total torque has as second-foot wrench exactly the redistributed wrench computed from the input torque, without changing any joint acceleration.", "quantifier": "all states with contact_dof_ = 12", "why_tests_cant": "Continuous domain; depends on the history of torque_contact_.", "anchors": ["src/dwbc.cpp: RobotData::CalcContactRedistribute"]}
{"id": "C29", "title": "Hierarchical null-space bases annihilate all higher equality levels", "statement": "After HQP::prepare, for every level i and every k <= i, B_k Z_i = 0, and every decision change that keeps all B_k (k <= i) fixed is Z_i u for some u.", "quantifier": "every number of levels, all matrices", "why_tests_cant": "Unbounded number of levels; all matrices.", "anchors": ["src/dwbc_hqp.cpp: HQP::prepare", "src/math.cpp: getNullSpace"]}
{"id": "C30", "title": "Solving a lower level never changes the equality residual of a higher one", "statement": "For any number of levels and whatever vectors the solver returns, B_k y_i = B_k y_k for all 1 <= k <= i, so w_ans_ of a level stays the residual of the final answer.", "quantifier": "every number of levels, all matrices, arbitrary solver outputs", "why_tests_cant": "Unbounded levels and adversarial solver.", "anchors": ["src/dwbc_hqp.cpp: HQP::solveSequentialSingle, solveSequential, prepare"]}
{"id": "C31", "title": "Lower levels keep higher-level inequalities up to their accepted slack", "statement": "If at every level the solver's answer satisfies the constraints handed to it then the final answer satisfies A_k y + a_k <= v_k for every level k, with v_k the slack fixed when level k was solved (level 0: its initial slack).", "quantifier": "every number of levels, all matrices, any feasible solver outputs", "why_tests_cant": "Unbounded levels.", "anchors": ["src/dwbc_hqp.cpp: HQP::solveSequentialSingle, solveSequential"]}
{"id": "C32", "title": "Each level's QP is the right least-squares problem", "statement": "For a level without extra cost, an optimal answer of the QP handed to the solver minimises ||B_i y + b_i||^2 + ||v||^2 over all y = y_{i-1} + Z_{i-1} u and v satisfying the level's inequalities and the inherited ones; optimal slacks are non-negative although the sign constraint is not passed to OSQP.", "quantifier": "every level, all matrices, all competitors", "why_tests_cant": "Optimality over infinite sets.", "anchors": ["src/dwbc_hqp.cpp: HQP::solveSequentialSingle, HQP_Hierarch::solveOSQP"]}
{"id": "C33", "title": "Row normalisation does not change the constraints", "statement": "HQP_Hierarch::normalizeConstraintMatrix leaves the solution sets {A y + a <= 0} and {B y + b = 0} unchanged, and makes every non-zero row unit norm.", "quantifier": "every matrix and right-hand side", "why_tests_cant": "Continuous domain, any size.", "anchors": ["src/dwbc_hqp.cpp: HQP_Hierarch::normalizeConstraintMatrix"]}
{"id": "C34", "title": "QP wrapper: every solve uses exactly the data last supplied, hot-starting only on an initialised problem", "statement": "For every sequence of calls on CQuadraticProgram after InitializeProblemSize, each SolveQPoases passes to the solver exactly the H, g and the bounds last supplied and enabled; hotstart is only attempted on a problem that was initialised for the current size; and 1 is returned iff the last solver call and the solution read-out both succeeded.", "quantifier": "every call history and every solver return-code behaviour", "why_tests_cant": "Unbounded histories and adversarial return codes.", "anchors": ["src/qp_wrapper.cpp: CQuadraticProgram::SolveQPoases, InitializeProblemSize, UpdateSubjectToAx, UpdateSubjectToAxUb, UpdateSubjectToX, DeleteSubjectToAx, DeleteSubjectToX"]}
{"id": "C35", "title": "Quintic spline meets its boundary conditions and its velocity/acceleration are derivatives", "statement": "For time_0 < time_f, QuinticSpline returns the given start state at time_0 and end state at time_f, is constant outside, and inside its second and third components are the first and second time derivatives of the first; position, velocity and acceleration are continuous at both ends.", "quantifier": "all real times and boundary values with time_0 < time_f", "why_tests_cant": "Continuous domain.", "anchors": ["src/math.cpp: QuinticSpline"]}
{"id": "C36", "title": "Rest-to-rest quintic motion is monotone and stays between its end points", "statement": "With zero boundary velocities and accelerations (the way TaskLink rotations and default position moves use it) the position is monotone in time and stays between start and end.", "quantifier": "all real times and end points with time_0 < time_f", "why_tests_cant": "Continuous domain.", "anchors": ["src/math.cpp: QuinticSpline", "src/task.cpp: TaskLink::GetFstarPosPD, GetFstarRotPD"]}
{"id": "C37", "title": "Cubic interpolation meets its boundary conditions; rest-to-rest is monotone and in range", "statement": "For time_0 < time_f cubic equals x_0 before and at time_0, x_f from time_f on, its derivative at the ends is the given one, and with zero end velocities it is monotone and stays between x_0 and x_f.", "quantifier": "all real times and boundary values with time_0 < time_f", "why_tests_cant": "Continuous domain.", "anchors": ["src/math.cpp: cubic"]}
{"id": "C38", "title": "Elementary rotations are rotations and compose additively", "statement": "rotateWithX/Y/Z(a) are orthogonal with determinant 1, rotateWith(a) rotateWith(b) = rotateWith(a+b), and the inverse is rotateWith(-a).", "quantifier": "all real angles", "why_tests_cant": "Continuous domain.", "anchors": ["src/math.cpp: rotateWithX, rotateWithY, rotateWithZ"]}
{"id": "C39", "title": "rotationCubic interpolates between rotations", "statement": "For rotations rotation_0, rotation_f the result of rotationCubic is always a rotation; for time_0 < time_f it is rotation_0 for time <= time_0 and rotation_f for time >= time_f, depends continuously on time, and turns about one fixed axis through an angle of at most pi at the pace of the cubic.", "quantifier": "all times, all rotation pairs", "why_tests_cant": "Continuous domain.", "anchors": ["src/math.cpp: rotationCubic"]}
{"id": "C40", "title": "Orientation error is zero at the target, odd, and proportional to the rotation axis", "statement": "GetPhi(R,R) = 0, GetPhi(R1,R2) = -GetPhi(R2,R1), GetPhi(R, exp(theta [a]) R) = sin(theta) a for a unit axis a; it vanishes only when the orientations coincide.", "quantifier": "all rotations, axes and angles", "why_tests_cant": "Continuous domain.", "anchors": ["src/math.cpp: GetPhi"]}
{"id": "C41", "title": "skew is the cross-product matrix", "statement": "skew(a) b = a x b, skew(a)^T = -skew(a), skew(R a) = R skew(a) R^T for every rotation R.", "quantifier": "all vectors and rotations", "why_tests_cant": "Continuous domain.", "anchors": ["src/math.cpp: skew"]}
{"id": "C42", "title": "Merging links preserves mass, first moment and inertia", "statement": "Link::AddLink(other, R, p) with R orthogonal and non-zero total mass yields a link whose mass, centre of mass and inertia are those of the union: mass adds, mass-weighted COM adds, and the rotational inertia about any common point equals the sum of the parts' inertias about that point.", "quantifier": "all links, placements and reference points", "why_tests_cant": "Continuous domain.", "anchors": ["src/link.cpp: Link::AddLink"]}
{"id": "C43", "title": "Spatial inertia matrix and its decomposition are inverse to each other", "statement": "InertiaMatrixSegment applied to GetSpatialInertiaMatrix(false) returns the link's inertia, centre of mass and mass (mass non-zero).", "quantifier": "all links with non-zero mass", "why_tests_cant": "Continuous domain.", "anchors": ["src/link.cpp: Link::GetSpatialInertiaMatrix", "src/math.cpp: InertiaMatrixSegment"]}
{"id": "C44", "title": "Composite centre of mass decouples the centroidal inertia", "statement": "CalcCOMInertia: the off-diagonal blocks of the computed 6x6 inertia about the centre of mass vanish, its linear block is the total mass times identity, and the linear momentum is the sum of the links' momenta.", "quantifier": "any number of links, all poses", "why_tests_cant": "Unbounded number of links.", "anchors": ["src/dwbc.cpp: RobotData::CalcCOMInertia"]}
{"id": "C45", "title": "Virtual inertia of a sub-tree equals the merged rigid body", "statement": "CalcVirtualInertia terminates and returns the total mass and the mass-weighted centre of mass of all links of the sub-tree expressed in the root frame.", "quantifier": "every non-empty tree of links whose parents precede their children", "why_tests_cant": "Unbounded trees; termination.", "anchors": ["src/dwbc.cpp: RobotData::CalcVirtualInertia", "src/link.cpp: Link::AddLink"]}
{"id": "C46", "title": "Centroidal momentum matrix gives total angular momentum about the COM", "statement": "CalcAngularMomentumMatrix times the joint velocity equals the sum over links of spin momentum plus (position relative to COM) x linear momentum.", "quantifier": "any number of links, all poses and velocities", "why_tests_cant": "Unbounded number of links.", "anchors": ["src/dwbc.cpp: RobotData::CalcAngularMomentumMatrix"]}
{"id": "C47", "title": "The second-order low-pass filter has unit DC gain and is stable", "statement": "For positive cut-off, damping and sampling frequency: a constant history is reproduced exactly, the filter is linear, and both poles lie strictly inside the unit circle, so the response to any initial state with zero input decays to zero.", "quantifier": "all parameter values and all input sequences", "why_tests_cant": "Infinite sequences; continuous parameters.", "anchors": ["src/math.cpp: secondOrderLowPassFilter"]}
{"id": "C48", "title": "Link velocity filter applies the documented filter to the velocity history", "statement": "Link::calc2lpf outputs secondOrderLowPassFilter applied to the last three raw velocities and the last two outputs.", "quantifier": "all velocity histories", "why_tests_cant": "Infinite sequences.", "anchors": ["src/link.cpp: Link::initialize2lpf, calc2lpf"]}
{"id": "C49", "title": "Deleting a link removes exactly its subtree and keeps the link tree well formed", "statement": "DeleteLink removes the link and all its descendants and nothing else; afterwards link_id_ equals position, parents precede children, parent/child relations among the survivors are the old ones renumbered, and total_mass_ is the sum of the remaining masses; an unknown name changes nothing.", "quantifier": "every well-formed tree, every link other than the base and every run that returns (it returns whenever no task is on that link or a later one; C50 and C75 deal with the rest)", "why_tests_cant": "Unbounded trees.", "anchors": ["src/dwbc.cpp: RobotData::DeleteLink, InitAfterModelMod"]}
{"id": "C50", "title": "Contacts and tasks keep designating the same physical link after a deletion", "statement": "After DeleteLink, every remaining contact and task link refers to the same physical link as before.", "quantifier": "every well-formed model, registry and deleted link", "why_tests_cant": "All histories.", "anchors": ["src/dwbc.cpp: RobotData::InitAfterModelMod"]}
{"id": "C51", "title": "Torque limits survive model modification", "statement": "After DeleteLink/AddLink/InitModelData the torque limit in force is either unset or still the one the user gave for the joints that remain.", "quantifier": "every state with a torque limit set", "why_tests_cant": "All states.", "anchors": ["src/dwbc.cpp: RobotData::InitializeMatrix, InitAfterModelMod, InitModelData, SetTorqueLimit"]}
{"id": "C52", "title": "Changing a joint to fixed conserves mass", "statement": "ChangeLinkToFixedJoint on a leaf link keeps the total mass and the physical mass distribution.", "quantifier": "every model with a leaf link", "why_tests_cant": "All models.", "anchors": ["src/dwbc.cpp: RobotData::ChangeLinkToFixedJoint"]}
{"id": "C53", "title": "Reduced model partitions the joints", "statement": "After ReducedDynamicsCalculate the contact-chain and non-contact-chain joint index lists are disjoint and together with the six base coordinates enumerate every coordinate exactly once, so that reduced_model_dof_ = co_dof + 6 and co_dof + nc_dof + 6 = system_dof_.", "quantifier": "every tree and every set of active contacts", "why_tests_cant": "Unbounded trees; all activation patterns.", "anchors": ["src/dwbc.cpp: RobotData::ReducedDynamicsCalculate"]}
{"id": "C54", "title": "Reduced inertia is the dynamically consistent projection of the full inertia", "statement": "A_R_inv = J_R A_inv J_R^T is symmetric positive definite when A is and J_R has full row rank, and the shortcut J_R_INV_T = diag(I, J_I_nc_inv_T) used by the code equals the dynamically consistent inverse A_R J_R A_inv whenever the momentum coupling A_vn factors through J_I_nc.", "quantifier": "all dimensions and matrices", "why_tests_cant": "All dimensions and matrices.", "anchors": ["src/dwbc.cpp: RobotData::ReducedDynamicsCalculate"]}
{"id": "C55", "title": "Contact redistribution of the reduced model enforces both torque limits", "statement": "When CalcContactRedistributeR returns 1, the total torque obeys the upper and the lower torque limit.", "quantifier": "every solver answer meeting its constraints", "why_tests_cant": "Adversarial solver, all dimensions.", "anchors": ["src/dwbc.cpp: RobotData::CalcContactRedistributeR"]}
{"id": "C56", "title": "UpdateKinematics rejects ill-sized inputs without side effects", "statement": "UpdateKinematics with a q, qdot or qddot vector of the wrong size changes nothing; with right sizes it stores exactly the given vectors.", "quantifier": "all states and all vector sizes", "why_tests_cant": "All states.", "anchors": ["src/dwbc.cpp: RobotData::UpdateKinematics"]}
{"id": "C57", "title": "PD reference is exact tracking feed-forward", "statement": "GetFstarPosPD equals a_gain*acc + p_gain*(pos error) + d_gain*(vel error) per axis for position-type modes with pos/vel/acc taken from the quintic spline, and zero for rotation modes; when the link follows the spline exactly it is a_gain*acc.", "quantifier": "all gains, states, times and modes", "why_tests_cant": "Continuous domain.", "anchors": ["src/task.cpp: TaskLink::GetFstarPosPD"]}
{"id": "C58", "title": "Custom-frame tasks use the velocity of the task point", "statement": "For *_CUSTOM_FRAME link modes the velocity fed to the PD law is the world velocity of the task point, v + w x (rotm * point), i.e. J_task qdot.", "quantifier": "all link states and task points", "why_tests_cant": "Continuous domain.", "anchors": ["src/dwbc.cpp: RobotData::UpdateTaskSpace"]}
{"id": "C59", "title": "CopyKinematicsData does not modify its source", "statement": "CopyKinematicsData(target) copies state to the target and leaves the source's contact activation unchanged.", "quantifier": "all pairs of states", "why_tests_cant": "All states.", "anchors": ["src/dwbc.cpp: RobotData::CopyKinematicsData"]}
{"id": "C60", "title": "Threaded hierarchical torque equals the sequential one", "statement": "CalcTaskSpaceTorqueHQPWithThreaded produces a total torque with the same guarantees (limits, priorities) as CalcTaskControlTorque.", "quantifier": "any number of levels", "why_tests_cant": "Unbounded number of levels.", "anchors": ["src/dwbc.cpp: RobotData::CalcTaskSpaceTorqueHQPWithThreaded"]}
{"id": "C61", "title": "A rejected SetContact is harmless whenever it is made", "statement": "A SetContact call with more flags than registered plane contacts reports the error and leaves the registry as it was, whatever calls were made before.", "quantifier": "every history of contact-registry calls, every over-long flag vector", "why_tests_cant": "The defect needs a particular order of calls (rejected call before an accepted one, or after a further AddContactConstraint) and reads uninitialised memory, so a test usually passes by luck.", "anchors": ["include/dwbc.h: RobotData::SetContact", "src/dwbc.cpp: RobotData::UpdateContactConstraint"]}
{"id": "C62", "title": "SetTaskSpace refuses a reference of the wrong size", "statement": "SetTaskSpace called with an f_star whose size differs from task_dof_ leaves the task as it was.", "quantifier": "every task and every reference vector", "why_tests_cant": "The library prints an error and stores the vector anyway; the failure shows up later, in another call, as a size mismatch.", "anchors": ["src/dwbc.cpp: RobotData::SetTaskSpace"]}
{"id": "C63", "title": "AddTaskSpace gives the task the priority asked for", "statement": "AddTaskSpace(heirarchy, ...) with heirarchy at most the number of tasks registers the link at that priority; a larger heirarchy changes nothing.", "quantifier": "every registry state, every heirarchy and every overload", "why_tests_cant": "The answer differs between overloads and depends on the number of tasks already present.", "anchors": ["src/dwbc.cpp: RobotData::AddTaskSpace"]}
{"id": "C64", "title": "AddTaskSpace refuses a link index outside the robot", "statement": "AddTaskSpace by link index either registers a task on an existing link or changes nothing.", "quantifier": "every registry state and every index", "why_tests_cant": "The bad index is accepted silently and only indexes out of range in a later UpdateTaskSpace.", "anchors": ["src/dwbc.cpp: RobotData::AddTaskSpace, UpdateTaskSpace"]}
{"id": "C65", "title": "Hierarchical QP control works in single support", "statement": "CalcTaskControlTorque(hqp=true) is defined (no mismatched matrix product) when exactly one plane contact is active and the level QP succeeds.", "quantifier": "every robot, every task list and every solver answer with one active plane contact", "why_tests_cant": "The mismatch is an assertion in debug builds and an out-of-bounds read in release builds; the shipped tests run the hqp branch with two contacts.", "anchors": ["src/dwbc.cpp: RobotData::CalcTaskControlTorque, CalcContactConstraint, CalcSingleTaskTorqueWithQP"]}
{"id": "C66", "title": "Two-foot redistribution meets the foot limits whenever a split can", "statement": "If some split in [1-eta_cust, eta_cust] of the net wrench keeps the centre of pressure of both feet inside the scaled foot rectangle and the yaw moment within its bound, then the wrenches returned by ContactRedistributetwomod do so on both feet.", "quantifier": "all foot positions, wrenches, foot sizes and ratios", "why_tests_cant": "The quadratic bounds are intersected case by case (order of roots, degenerate coefficients); a test sees one branch at a time.", "anchors": ["src/wbd.cpp: ContactRedistributetwomod"]}
{"id": "C67", "title": "Two-foot redistribution always returns numbers", "statement": "ContactRedistributetwomod returns finite foot wrenches for every finite input.", "quantifier": "all foot positions and wrenches", "why_tests_cant": "The 0/0 appears only on a measure-zero set of inputs (no net roll moment about either foot), which includes standing still in tandem stance.", "anchors": ["src/wbd.cpp: ContactRedistributetwomod"]}
{"id": "C68", "title": "Two-foot redistribution uses the positions of the two active feet", "statement": "When contact_dof_ is 12, the positions entering the redistribution are those of the active contacts, whatever contacts are registered.", "quantifier": "all contact registries with exactly two active plane contacts", "why_tests_cant": "The shipped robots register the two feet first; the defect needs a third contact registered before one of the active ones.", "anchors": ["src/dwbc.cpp: RobotData::CalcContactRedistribute"]}
{"id": "C69", "title": "Two-foot redistribution works in the heading frame of the base", "statement": "The rotation applied to feet and forces before the redistribution turns the forward axis of an upright base into the x axis, so that foot length and width are applied along the foot.", "quantifier": "every heading of an upright base", "why_tests_cant": "Tests use robots facing the world x axis, for which any angle convention gives the identity.", "anchors": ["src/dwbc.cpp: RobotData::CalcContactRedistribute", "src/link.cpp: Link::UpdatePos"]}
{"id": "C70", "title": "The cost vector given to updateCostMatrix takes part in the optimisation", "statement": "For a level with updateCostMatrix(H, g), the level minimises the constraint residuals plus 1/2 y'Hy + g'y over the decisions left by the levels above.", "quantifier": "for all hierarchies, all H, g and all optimal solver answers", "why_tests_cant": "g_ is stored but never read; with g = 0, as in all callers, nothing shows", "anchors": ["src/dwbc_hqp.cpp: HQP_Hierarch::updateCostMatrix, HQP::solveSequentialSingle"]}
{"id": "C71", "title": "Constraint weights given to updateConstraintWeight take part in the optimisation", "statement": "For a level with updateConstraintWeight(V, W), solveSequential minimises the weighted residual ||W(B y + b)||^2.", "quantifier": "for all hierarchies, weights and optimal solver answers", "why_tests_cant": "weights are only used by solvefirst; with identity weights, the default, nothing shows", "anchors": ["src/dwbc_hqp.cpp: HQP_Hierarch::updateConstraintWeight, HQP::solveSequentialSingle, HQP::solvefirst"]}
{"id": "C72", "title": "Re-solving with init = false solves the problem of the current matrices", "statement": "After a successful solve, updating the matrices, preparing again and calling solveSequential(false) hands the solver, at every level, the same problem as solveSequential(true) would.", "quantifier": "for all hierarchies and all updates of their matrices", "why_tests_cant": "init = false keeps the old QP matrices and overwrites only some blocks; a change of the rank of an equality matrix (contact change, singular posture) changes the block sizes", "anchors": ["src/dwbc_hqp.cpp: HQP::solveSequentialSingle, HQP::prepare"]}
{"id": "C73", "title": "The fallback solve gets ten times the iteration budget", "statement": "When the first solver call of SolveQPoases fails, the second attempt may use ten times the caller's number of working set recalculations.", "quantifier": "for every solver behaviour allowed by its documentation", "why_tests_cant": "nWSR is an in/out parameter of qpOASES; the multiplication looks right unless the solver's write is taken into account, and it shows only on failing problems", "anchors": ["src/qp_wrapper.cpp: CQuadraticProgram::SolveQPoases"]}
{"id": "C74", "title": "AxisTransform2V maps one direction onto the other by a rotation", "statement": "For non-zero vectors, AxisTransform2V(from, to) is a rotation that takes the direction of from to the direction of to.", "quantifier": "all pairs of non-zero vectors", "why_tests_cant": "Continuous domain; the defect sits on a measure-zero set (opposite vectors), which random tests never hit.", "anchors": ["src/math.cpp: AxisTransform2V"]}
{"id": "C75", "title": "The base and the COM entry can be deleted or are refused", "statement": "DeleteLink of the base link, or of the name COM, returns (with an empty model, or unchanged).", "quantifier": "every well-formed floating-base model", "why_tests_cant": "A test of one such call cannot show that all of them are undefined.", "anchors": ["src/dwbc.cpp: RobotData::DeleteLink, InitAfterModelMod"]}
{"id": "C76", "title": "After a deletion RBDL names still lead to their bodies", "statement": "After DeleteLink every name in the RBDL model, movable or attached by a fixed joint, leads to the same physical body as before.", "quantifier": "every well-formed model and deleted link", "why_tests_cant": "All models.", "anchors": ["src/dwbc.cpp: RobotData::DeleteLink (mBodyNameMap loop)"]}
{"id": "C77", "title": "link_num_ and joint_id_ are current after a deletion", "statement": "After DeleteLink link_num_ is the number of links and joint_id_ of each link is the coordinate of its joint; ReducedDynamicsCalculate and ReducedCalcTaskSpace rely on both.", "quantifier": "every well-formed model and deleted link", "why_tests_cant": "All models.", "anchors": ["src/dwbc.cpp: RobotData::DeleteLink, InitAfterModelMod, ReducedDynamicsCalculate"]}
{"id": "C78", "title": "A link added with a revolute joint is a full member of the model", "statement": "After AddLink with a revolute joint, the link tree and the RBDL model agree, the total mass includes the new link, and deleting the new link restores the old tree.", "quantifier": "every well-formed model, parent, fresh name and body", "why_tests_cant": "All models.", "anchors": ["src/dwbc.cpp: RobotData::AddLink, InitAfterModelMod"]}
{"id": "C79", "title": "Loading a model builds a link tree that agrees with the RBDL model", "statement": "After InitModelData the link and joint lists have one entry per massive body, parents and children agree with the RBDL tree, joint_id_ is the first coordinate of the joint, total_mass_ is the sum of the masses; also when another model had been loaded before, and when massless bodies lie between links.", "quantifier": "every RBDL tree", "why_tests_cant": "Unbounded trees.", "anchors": ["src/dwbc.cpp: RobotData::InitModelData"]}
{"id": "C80", "title": "Tasks follow a change of contacts", "statement": "At every call of ReducedDynamicsCalculate each link task is classified (non-contact task, reduced task, COM task) by where its links lie with respect to the contact chains of that call.", "quantifier": "all trees, task lists and sequences of contact activations", "why_tests_cant": "The flags are members that outlive a call; the defect shows only when a contact is switched between two control cycles.", "anchors": ["src/dwbc.cpp: RobotData::ReducedDynamicsCalculate (2794-2835)"]}
{"id": "C81", "title": "Tasks may be given in any order to the reduced controller", "statement": "ReducedCalcTaskSpace and ReducedCalcTaskControlTorque only access tasks that exist, whatever kind the first task is.", "quantifier": "all task lists", "why_tests_cant": "The access ts_[-1] is an out-of-bounds read that usually goes unnoticed; the examples always start with a COM task.", "anchors": ["src/dwbc.cpp: RobotData::ReducedCalcTaskSpace, ReducedCalcTaskControlTorque"]}
{"id": "C82", "title": "Contact matrices of the reduced model are those of the reduced system", "statement": "ReducedCalcContactConstraint gives the contact inertia, null space and gravity contact force of the constrained reduced system (A_R, J_CR, G_R), with the contact inertia and the gravity contact force of the full robot.", "quantifier": "all robots, contact configurations and dimensions", "why_tests_cant": "The code truncates J_CR and A_R_inv to contact_dof_ + 6 columns, which is harmless for two six-joint legs in full contact and only then tested.", "anchors": ["src/dwbc.cpp: RobotData::ReducedCalcContactConstraint"]}
{"id": "C83", "title": "Gravity compensation of the reduced model holds the robot still", "statement": "With the torque of ReducedCalcGravCompensation the constrained full robot, at rest, does not accelerate; the call works for any number of joints outside the contact chains.", "quantifier": "all robots and contacts that fix the base", "why_tests_cant": "Quantifies over all inertia matrices and dimensions.", "anchors": ["src/dwbc.cpp: RobotData::ReducedCalcGravCompensation"]}
{"id": "C84", "title": "Torques of the reduced model act on the robot as on the reduced model", "statement": "Distributed over the joints as at the end of ReducedCalcTaskControlTorque, reduced-model torques give the full robot exactly the contact forces and reduced acceleration (base, contact joints, momentum of the rest) of the reduced model, for any null-space torque.", "quantifier": "all robots, contacts and torques", "why_tests_cant": "Quantifies over all inertia matrices, dimensions and torques.", "anchors": ["src/dwbc.cpp: RobotData::ReducedDynamicsCalculate, ReducedCalcTaskControlTorque (3442-3443)"]}
{"id": "C85", "title": "Orientation reference moves between the given orientations", "statement": "Between the start and end orientation set with SetTrajectoryRotation the orientation reference turns about one fixed axis by at most a half turn, is a rotation at all times, starts and ends exactly at the given orientations, and the reference angular velocity is its angular velocity; GetFstarRotPD is the PD law around it and vanishes when the link tracks it.", "quantifier": "all orientations, gains, states and times", "why_tests_cant": "Continuous domain, special cases of the matrix-to-quaternion conversion and of slerp (equal or opposite quaternions) are measure-zero.", "anchors": ["src/task.cpp: TaskLink::GetFstarRotPD, TaskLink::SetTrajectoryRotation"]}
{"id": "C86", "title": "Position and orientation trajectories of a task link are independent", "statement": "A position trajectory set with SetTrajectoryQuintic stays in force until the next one is set, whatever other setters of the task link are called.", "quantifier": "all sequences of setter calls", "why_tests_cant": "The two trajectories share their start and end time, which is invisible as long as tests use the same interval for both.", "anchors": ["src/task.cpp: TaskLink::SetTrajectoryQuintic, TaskLink::SetTrajectoryRotation"]}
{"id": "C87", "title": "Rotational feed-forward is part of the reference", "statement": "GetFstarRotPD adds rot_a_gain_ times the acceleration of the orientation reference, and the reference has the end angular velocities given to SetTrajectoryRotation.", "quantifier": "all gains, orientations and angular velocities", "why_tests_cant": "Continuous domain; needs the derivative of the reference.", "anchors": ["src/task.cpp: TaskLink::GetFstarRotPD"]}
{"id": "C88", "title": "Error regulation bounds the PD errors", "statement": "After SetPDerrorRegulation the position and velocity errors used by the PD law are bounded by the given maxima.", "quantifier": "all states and bounds", "why_tests_cant": "Continuous domain.", "anchors": ["src/task.cpp: TaskLink::SetPDerrorRegulation"]}
{"id": "C89", "title": "UpdateKinematics yields the true centroidal quantities", "statement": "Given the mass matrix of a floating-base tree of rigid bodies, UpdateKinematics stores: com_pos = mass-weighted mean of link COMs; CMM_ mapping every joint velocity to total linear momentum and total angular momentum about com_pos; link_.back() inertia = composite inertia about com_pos; link_.back() velocity = momentum / mass; G_ = gradient of potential energy; A_inv_ = inverse of A_.", "quantifier": "all floating-base trees, configurations and joint velocities", "why_tests_cant": "The code recovers COM, momentum matrix and gravity from blocks of the mass matrix; that this is right for every tree is an algebraic theorem, not something samples establish.", "anchors": ["src/dwbc.cpp: RobotData::UpdateKinematics"]}
{"id": "C90", "title": "UpdateKinematics with update_kinematics=false keeps the dynamics usable", "statement": "UpdateKinematics(q, qdot, qddot, false) keeps A_ and A_inv_ and yields finite com_pos, CMM_ and G_.", "quantifier": "all states and well-sized inputs", "why_tests_cant": "Needs all states; one call with stale data shows nothing.", "anchors": ["src/dwbc.cpp: RobotData::UpdateKinematics", "tests/test_thread.cpp"]}
{"id": "C91", "title": "com_vel is the velocity of the centre of mass", "statement": "After UpdateKinematics the public member com_vel times total_mass_ is the total momentum at the given joint velocity.", "quantifier": "all states and joint velocities", "why_tests_cant": "All joint velocities; at rest the claim holds trivially.", "anchors": ["src/dwbc.cpp: RobotData::UpdateKinematics", "include/dwbc.h"]}
{"id": "C92", "title": "CopyKinematicsData transfers the robot state", "statement": "After CopyKinematicsData the target has the source's time, configuration, limits, model, mass matrix and its inverse, gravity, momentum matrix, links, tasks, QP objects and contact definitions; its other members are untouched; the call is defined exactly if the target's qp_task_ can hold the copied objects.", "quantifier": "all pairs of robots", "why_tests_cant": "All sizes of the four vectors on both sides.", "anchors": ["src/dwbc.cpp: RobotData::CopyKinematicsData"]}
{"id": "C93", "title": "A copy can be driven like the original", "statement": "After CopyKinematicsData, SetContact on the target yields exactly the contact state (activation, counters, J_C) that SetContact yields on the source, whatever the target held before.", "quantifier": "all pairs of robots, all activation vectors not longer than the contact list", "why_tests_cant": "Depends on every stale member of the target.", "anchors": ["src/dwbc.cpp: RobotData::CopyKinematicsData", "include/dwbc.h: SetContact"]}
{"id": "C94", "title": "A copy is in the contact state of the original", "statement": "After CopyKinematicsData, contact_dof_ and contact_link_num_ of the target agree with its (copied) contacts, so the copied activation can be used without another SetContact.", "quantifier": "all pairs of robots", "why_tests_cant": "All prior states of the target.", "anchors": ["src/dwbc.cpp: RobotData::CopyKinematicsData"]}
{"id": "C95", "title": "Contact redistribution of the reduced model writes back the contact joints' torques", "statement": "After CalcContactRedistributeR the member torque_contact_ holds the redistribution torque of every contact joint and zero for every other joint.", "quantifier": "every number of contact joints, contacts and active plane contact dimension", "why_tests_cant": "Correct exactly for the robot on which it was tested (two six-joint legs).", "anchors": ["src/dwbc.cpp: RobotData::CalcContactRedistributeR"]}
{"id": "C96", "title": "Contact redistribution of the reduced model minimises tangential contact loads", "statement": "When CalcContactRedistributeR returns 1 with an optimal QP answer, the squared norm of the contact forces tangential to the contact surfaces and of the contact moments, in the contact frames, is least among all redistributions meeting the problem's constraints.", "quantifier": "every robot state, every contact orientation, every alternative redistribution", "why_tests_cant": "Optimality against all alternatives is a universal statement over a continuum.", "anchors": ["src/dwbc.cpp: RobotData::CalcContactRedistributeR"]}
{"id": "C97", "title": "ConfigureLQP builds the hierarchy it documents", "statement": "Called on an empty hierarchy for a robot with consistent sizes and plane contacts, ConfigureLQP succeeds and yields 2 + #tasks levels: level 0 means base dynamics (A qdd + J'f + g = 0 in the six base rows) and joint torques within 200; level 1 means zero contact acceleration, contact forces in their friction/CoP cones and joint accelerations within 5; level 2+k means task k; every level but the first carries 5 qdd'A qdd / |A|. Row normalisation changes none of these meanings.", "quantifier": "all robots, inertias, contact sets, task lists, all decision vectors", "why_tests_cant": "Equivalence of the assembled rows with the mechanical meaning for every vector.", "anchors": ["src/dwbc.cpp: RobotData::ConfigureLQP", "src/dwbc_hqp.cpp: HQP::prepare, normalizeConstraintMatrix"]}
{"id": "C98", "title": "The LQP answer always satisfies the base dynamics", "statement": "After ConfigureLQP and any number of CalcControlTorqueLQP calls (first with init = true), whatever the QP solver returned, the answers of all levels satisfy the six floating-base rows of the equation of motion exactly; the calls never leave defined behaviour.", "quantifier": "all robots, all solver answers, all call sequences", "why_tests_cant": "Independence of an arbitrary (even failing) solver.", "anchors": ["src/dwbc.cpp: RobotData::ConfigureLQP, CalcControlTorqueLQP"]}
{"id": "C99", "title": "LQP joint torques respect the user's torque limits", "statement": "If a torque limit has been set with SetTorqueLimit, an exact solve of the hierarchy returns joint torques within these limits.", "quantifier": "all robots and limits", "why_tests_cant": "Universal over states; also about a member that is never read.", "anchors": ["src/dwbc.cpp: RobotData::ConfigureLQP", "include/dwbc.h: SetTorqueLimit"]}
{"id": "C100", "title": "LQP keeps the contacts at rest while standing is possible", "statement": "If the robot can stand still within the torque bound and the friction cones, an exact solve of level 1 has zero acceleration, and all later levels keep zero contact acceleration, forces in their cones, joint accelerations within 5 and torques within 200. In any case the lower levels never change the contact acceleration found by level 1.", "quantifier": "all robots, all lower-level solver answers that are admissible", "why_tests_cant": "A universal statement over optimisation problems.", "anchors": ["src/dwbc.cpp: RobotData::ConfigureLQP", "src/dwbc_hqp.cpp: HQP::solveSequential"]}
{"id": "C101", "title": "LQP meets an attainable task", "statement": "If the desired acceleration of the first task is attainable within all higher-priority constraints, an exact solve of its level attains it.", "quantifier": "all robots and tasks", "why_tests_cant": "The shortfall is a property of the cost, invisible as a small tracking error.", "anchors": ["src/dwbc.cpp: RobotData::ConfigureLQP"]}
{"id": "C102", "title": "ConfigureLQP can be called again", "statement": "Calling ConfigureLQP again on the same HQP object (next control tick) yields the hierarchy of the current robot state, whose last level is the last task.", "quantifier": "all robots, any number of calls", "why_tests_cant": "Needs sequences of calls.", "anchors": ["src/dwbc.cpp: RobotData::ConfigureLQP", "src/dwbc_hqp.cpp: HQP::initialize, HQP::addHierarchy"]}
{"id": "C103", "title": "ConfigureLQP_R builds the reduced hierarchy for every task list", "statement": "For every list of contact and non-contact tasks ConfigureLQP_R succeeds on an empty hierarchy and yields one level per contact task, meaning that task in the reduced coordinates, below the reduced base dynamics, torque bounds and contact constraints.", "quantifier": "all robots, all task lists", "why_tests_cant": "Order of tasks and reduced dimensions vary.", "anchors": ["src/dwbc.cpp: RobotData::ConfigureLQP_R"]}
{"id": "C104", "title": "The acceleration-level task QP describes exactly the admissible motions", "statement": "CalcSingleTaskTorqueWithJACC_QP hands the solver a problem whose feasible points are exactly the accelerations, torques and contact forces that satisfy the equation of motion with gravity, keep active contacts still, lie in the contact cones, respect the built-in bounds, keep what higher levels settled and give the task its desired acceleration up to the deviation; its objective is half the acceleration energy plus fifty times the squared deviation. A successful call stores such a point in this task's result members and changes nothing else; a failed solve changes nothing.", "quantifier": "all robots, all contact sets, all task lists and levels, all solver answers", "why_tests_cant": "Needs equality of solution sets of real-valued problems of arbitrary dimension.", "anchors": ["src/dwbc.cpp: RobotData::CalcSingleTaskTorqueWithJACC_QP"]}
{"id": "C105", "title": "The acceleration-level hierarchy always succeeds and lower levels keep higher ones", "statement": "If the robot has one admissible motion, solving the tasks in order with CalcSingleTaskTorqueWithJACC_QP succeeds at every level, and the motion stored at each level still gives every higher task the acceleration settled at its own level.", "quantifier": "all robots, all task lists of any length, all sound and complete solvers", "why_tests_cant": "Needs induction over the number of levels and over solver answers.", "anchors": ["src/dwbc.cpp: RobotData::CalcSingleTaskTorqueWithJACC_QP"]}
{"id": "C106", "title": "The acceleration-level QP respects the torque limits the user set", "statement": "After SetTorqueLimit the torques stored by CalcSingleTaskTorqueWithJACC_QP never exceed the limits.", "quantifier": "all limits, all robots", "why_tests_cant": "The limit binds only in some states.", "anchors": ["src/dwbc.cpp: RobotData::CalcSingleTaskTorqueWithJACC_QP"]}
{"id": "C107", "title": "The acceleration-level QP meets an attainable task exactly", "statement": "If some admissible motion gives the task exactly its desired acceleration, the optimum of the task's problem does.", "quantifier": "all robots, all tasks", "why_tests_cant": "A small deviation hides in test tolerances.", "anchors": ["src/dwbc.cpp: RobotData::CalcSingleTaskTorqueWithJACC_QP"]}
{"id": "C108", "title": "The acceleration-level QP satisfies the full equation of motion", "statement": "The torques stored by CalcSingleTaskTorqueWithJACC_QP realise the stored accelerations on a moving robot, Coriolis and centrifugal terms included.", "quantifier": "all states, all velocities", "why_tests_cant": "Tests run at rest, where the terms vanish.", "anchors": ["src/dwbc.cpp: RobotData::CalcSingleTaskTorqueWithJACC_QP"]}
{"id": "C109", "title": "The reduced acceleration-level QP describes exactly the admissible reduced motions", "statement": "CalcSingleTaskTorqueWithJACC_QP_R builds the same problem for the reduced model (the six virtual torques unbounded), stores a feasible point in this task's result members only, and its hierarchy succeeds at every level and keeps the higher levels.", "quantifier": "all reduced robots, all contact sets, all task lists, all sound and complete solvers", "why_tests_cant": "Needs equality of solution sets and induction over levels.", "anchors": ["src/dwbc.cpp: RobotData::CalcSingleTaskTorqueWithJACC_QP_R"]}
{"id": "C110", "title": "The acceleration-level QP of the non-contact joints is defined for every task", "statement": "CalcSingleTaskTorqueWithJACC_QP_R_NC either refuses a prev_acc of the wrong size without changing anything, or solves for joint motions that satisfy the joints' equation of motion, the momentum rate and the task up to the deviations, and stores them in this task's result members only, for tasks of every dimension.", "quantifier": "all robots, all prev_acc, all task dimensions", "why_tests_cant": "Tests use six-dimensional tasks.", "anchors": ["src/dwbc.cpp: RobotData::CalcSingleTaskTorqueWithJACC_QP_R_NC"]}
{"id": "C111", "title": "The non-contact joints give the task link its desired acceleration", "statement": "A motion with zero task deviation, added to the base acceleration passed in prev_acc, gives the link the desired linear and angular acceleration; and an attainable desired acceleration is attained by the optimum.", "quantifier": "all base accelerations, all link offsets", "why_tests_cant": "The error vanishes when the base does not turn.", "anchors": ["src/dwbc.cpp: RobotData::CalcSingleTaskTorqueWithJACC_QP_R_NC"]}
{"id": "C112", "title": "The non-contact joints' torques and accelerations stay within the limits", "statement": "The torques and accelerations computed by CalcSingleTaskTorqueWithJACC_QP_R_NC stay within the bounds of 100 and 10 it sets up.", "quantifier": "all robots, all states", "why_tests_cant": "The bound binds only in some states.", "anchors": ["src/dwbc.cpp: RobotData::CalcSingleTaskTorqueWithJACC_QP_R_NC"]}
{"id": "C113", "title": "Reduced hierarchical control accepts the robot's torque limits", "statement": "After SetTorqueLimit with one limit per joint, ReducedCalcTaskControlTorque with hqp = true stays within its vectors, for every robot and task list.", "quantifier": "all robots, all task lists", "why_tests_cant": "The out-of-range read depends on the number of non-contact joints and may not crash.", "anchors": ["src/dwbc.cpp: RobotData::CalcSingleTaskTorqueWithQP_R", "src/dwbc.cpp: RobotData::SetTorqueLimit"]}
{"id": "C114", "title": "The reduced hierarchy of contact tasks keeps the contacts of the full robot", "statement": "With contact tasks only, ReducedCalcTaskControlTorque(hqp = true) either returns 0 and leaves a zero torque_task_, or returns 1 and leaves the distribution of the sum of the projected level torques; then gravity torque, task torque and a redistribution torque keep every contact force of the full robot in its cone. Tasks keep their data.", "quantifier": "all robots, task lists, solver answers", "why_tests_cant": "Contact forces of the full robot are not observable from the reduced quantities; infinitely many states.", "anchors": ["src/dwbc.cpp: RobotData::ReducedCalcTaskControlTorque", "src/dwbc.cpp: RobotData::CalcSingleTaskTorqueWithQP_R"]}
{"id": "C115", "title": "The reduced hierarchy with non-contact tasks keeps the contacts", "statement": "When ReducedCalcTaskControlTorque(hqp = true) with non-contact tasks returns 1, the torque it leaves, with gravity and redistribution, keeps every contact force in its cone.", "quantifier": "all robots, task lists, exact solvers", "why_tests_cant": "The QP reports success; the violated force shows up only on the robot.", "anchors": ["src/dwbc.cpp: RobotData::ReducedCalcTaskControlTorque", "src/dwbc.cpp: RobotData::CalcSingleTaskTorqueWithQP_R_NC"]}
{"id": "C116", "title": "Without corrections, the reduced QP hierarchy gives the closed-form torque", "statement": "If no QP asks for a correction, ReducedCalcTaskControlTorque with hqp = true and with hqp = false leave the same torque_task_ and torque_task_R_, for contact tasks followed by non-contact tasks.", "quantifier": "all robots, task lists, solver answers", "why_tests_cant": "Two code paths compared on all inputs.", "anchors": ["src/dwbc.cpp: RobotData::ReducedCalcTaskControlTorque"]}
{"id": "C117", "title": "Non-contact tasks may stand anywhere in the task list", "statement": "ReducedCalcTaskControlTorque is defined for every order of contact and non-contact tasks whose first task is a contact task.", "quantifier": "all task lists", "why_tests_cant": "An order that mixes the two kinds is not in the tests.", "anchors": ["src/dwbc.cpp: RobotData::ReducedCalcTaskControlTorque"]}
{"id": "C118", "title": "Contact-chain and COM tasks: the reduced hierarchy does what the full one does", "statement": "For a robot standing on plane contacts of its leading joints and a hierarchy of link tasks on the contact chains and centre-of-mass tasks, ReducedCalcTaskSpace followed by ReducedCalcTaskControlTorque(hqp = false) gives, together with the reduced gravity torque, the same joint accelerations as CalcTaskSpace/CalcTaskControlTorque of the full robot with the full gravity torque, and the same Lambda_task_; it is computed whenever no task and not the base is fixed by the contacts.", "quantifier": "all mass matrices, contact Jacobians, base rotations, task lists (any length and dimensions), Jacobians and f*, all contact-consistent motions", "why_tests_cant": "a test compares two torques for one robot state and a tolerance; equality of all motions for every hierarchy is an algebraic statement", "anchors": ["src/dwbc.cpp:3152-3252", "src/task.cpp:95-137", "src/task.cpp:213-222", "src/wbd.cpp:220-226", "src/dwbc.cpp:3255-3445", "src/dwbc.cpp:3098-3112"]}
{"id": "C119", "title": "Tasks on other limbs: the reduced hierarchy does what the full one does", "statement": "With tasks on contact chains or the centre of mass followed by any number of link tasks on other limbs, the reduced hierarchy (hqp = false) gives the accelerations of the full hierarchy.", "quantifier": "all robots standing on plane contacts, any number of limb tasks, all Jacobians and f*", "why_tests_cant": "needs three prioritised tasks on limbs and a comparison of motions, not of torques; the shipped examples have at most two", "anchors": ["src/dwbc.cpp:3293-3331", "src/dwbc.cpp:3378-3413", "src/dwbc.cpp:3152-3252"]}
{"id": "C120", "title": "The top task of the reduced hierarchy is achieved", "statement": "With a contact-chain or centre-of-mass task on top and any contact, COM and limb tasks below (limb tasks last), every contact-consistent motion under the reduced torque (hqp = false) has J_task a = f* for the top task.", "quantifier": "all robots standing on plane contacts, all task lists of that shape, all motions", "why_tests_cant": "a statement about every lower-priority task and every robot state", "anchors": ["src/dwbc.cpp:3255-3445", "src/dwbc.cpp:3152-3252", "src/task.cpp:95-137"]}
{"id": "C121", "title": "One task may span contact chains and other limbs", "statement": "A task over links of a contact chain and of another limb, or a custom task whose Jacobian has entries in both parts, gets a torque from ReducedCalcTaskSpace and ReducedCalcTaskControlTorque.", "quantifier": "all robots, task lists, positions of the task in the list, solvers and both values of hqp", "why_tests_cant": "the failing case is a message on the console and a product of matrices of different sizes, which a release build does not check", "anchors": ["src/task.cpp:117-142", "src/dwbc.cpp:3166-3225", "src/dwbc.cpp:3293-3297", "src/dwbc.cpp:3368-3372"]}
{"id": "C122", "title": "The non-contact LQP is built as documented", "statement": "ConfigureLQP_R_NC on an empty hierarchy builds exactly two levels over the nc_dof joint accelerations: first J_I_nc q'' = tail(q_acc) with the rows |A_NC q'' + G_NC| <= 200, then the second task's link acceleration with |q''| <= 5; both carry the cost 5 A_NC/|A_NC| and have matching sizes.", "quantifier": "all robots, all mass matrices, gravity vectors, group Jacobians, link positions, second tasks and q_acc", "why_tests_cant": "the content of the matrices for every robot is not observable from one solve", "anchors": ["src/dwbc.cpp:4634-4757", "src/dwbc.cpp:4479-4503", "src/dwbc_hqp.cpp: HQP::solvefirst", "src/dwbc_hqp.cpp: HQP::solveSequential"]}
{"id": "C123", "title": "ConfigureLQP_R_NC handles every task list", "statement": "For every list of tasks added with AddTaskSpace the configuration of the non-contact hierarchy is defined and takes account of every non-contact task.", "quantifier": "all task lists, dimensions and links", "why_tests_cant": "the code indexes ts_[1]; the shipped example has a six-dimensional second task, and out-of-range reads go unnoticed", "anchors": ["src/dwbc.cpp:4634-4757", "src/dwbc.cpp:4479-4503", "src/dwbc_hqp.cpp: HQP::solvefirst", "src/dwbc_hqp.cpp: HQP::solveSequential"]}
{"id": "C124", "title": "The group motion has priority over the link task", "statement": "After CalcControlTorqueLQP_R_NC, called any number of times and with any answers of the QP solver, the joint accelerations of the last level give the same J_I_nc q'' as those of level 0, every call is defined and the configuration is unchanged.", "quantifier": "all robots, all solvers, all numbers of calls", "why_tests_cant": "exact priority for all solver answers cannot be sampled", "anchors": ["src/dwbc.cpp:4634-4757", "src/dwbc.cpp:4479-4503", "src/dwbc_hqp.cpp: HQP::solvefirst", "src/dwbc_hqp.cpp: HQP::solveSequential"]}
{"id": "C125", "title": "An attainable group rate is reached", "statement": "If some joint acceleration gives J_I_nc q'' = tail(q_acc), then the exact solution of the non-contact hierarchy gives it.", "quantifier": "all robots with positive definite A_NC, all q_acc", "why_tests_cant": "the deviation is small for small accelerations and looks like solver tolerance", "anchors": ["src/dwbc.cpp:4634-4757", "src/dwbc.cpp:4479-4503", "src/dwbc_hqp.cpp: HQP::solvefirst", "src/dwbc_hqp.cpp: HQP::solveSequential"]}
{"id": "C126", "title": "The non-contact torques keep the torque limits", "statement": "The torque A_NC q'' + G_NC of the exact solution is at most 200, and at most the limit given by SetTorqueLimit, if holding still is within them.", "quantifier": "all robots, limits and wanted rates", "why_tests_cant": "the limit rows are soft; a test sees a violation only with large enough wanted rates", "anchors": ["src/dwbc.cpp:4634-4757", "src/dwbc.cpp:4479-4503", "src/dwbc_hqp.cpp: HQP::solvefirst", "src/dwbc_hqp.cpp: HQP::solveSequential"]}
{"id": "C127", "title": "Configuring the non-contact LQP again replaces it", "statement": "A second call of ConfigureLQP_R_NC on the same HQP object gives the hierarchy that a first call gives on an empty object.", "quantifier": "all robots, all states of the HQP object after a first configuration", "why_tests_cant": "the failing second call does not report anything", "anchors": ["src/dwbc.cpp:4634-4757", "src/dwbc.cpp:4479-4503", "src/dwbc_hqp.cpp: HQP::solvefirst", "src/dwbc_hqp.cpp: HQP::solveSequential"]}
{"id": "C128", "title": "Meeting the second level gives the link its desired acceleration", "statement": "If the equality rows of the second level hold, the link of the second task has the desired linear and angular acceleration f*, given the base acceleration head(q_acc).", "quantifier": "all robots, link positions, f* and base accelerations", "why_tests_cant": "the wrong term vanishes whenever the base and the link do not rotate", "anchors": ["src/dwbc.cpp:4634-4757", "src/dwbc.cpp:4479-4503", "src/dwbc_hqp.cpp: HQP::solvefirst", "src/dwbc_hqp.cpp: HQP::solveSequential"]}
{"id": "C129", "title": "Closed-form redistribution of the reduced model moves the real contact forces", "statement": "On a robot standing on two plane contacts of its twelve leading joints, CalcContactRedistributeR(hqp = false) leaves in torque_contact_ a torque which, added to the reduced gravity and task torques of the full robot, does not change any joint acceleration and turns the contact wrench into a split of the same net wrench with a share between 1/100 and 99/100. It returns 1 unless the moments about both feet vanish along the heading, and a second call changes nothing.", "quantifier": "all mass matrices, contact Jacobians, numbers of other joints, torques and motions", "why_tests_cant": "the torque is computed on the reduced model; its effect on the full robot is not visible in a unit test without a simulator", "anchors": ["src/dwbc.cpp:4762-4774", "src/dwbc.cpp:4942-4990", "src/wbd.cpp:273-404"]}
{"id": "C130", "title": "Closed-form redistribution of the reduced model works for any two plane contacts", "statement": "With two active plane contacts (contact_dof_ = 12), CalcContactRedistributeR(hqp = false) redistributes the contact force whatever the number of joints of the two chains, and with other contacts it leaves torque_contact_ zero and returns 0, as CalcContactRedistribute does.", "quantifier": "all robots and contact sets", "why_tests_cant": "the test robot has two legs of six joints", "anchors": ["src/dwbc.cpp:4762-4774", "src/dwbc.cpp:4942-4990", "src/wbd.cpp:273-404"]}
{"id": "C131", "title": "The Python bridge hands over the state and the references", "statement": "RlWBCBridge.UpdateKinematics(qpos, qvel, qacc) with contiguous arrays in the simulator's order (position, quaternion w x y z, joints) puts the robot at that configuration in RBDL's order (quaternion x y z before the joints, w after them), velocity and acceleration, and leaves contacts, references, limits and the last command alone. SetTaskSpace(h, f) replaces the reference of task h and of no other; no other call changes a reference.", "quantifier": "all call histories, states and arrays; all robots (RBDL arbitrary)", "why_tests_cant": "index permutations over pointers; tests feed one configuration", "anchors": ["src/pybind/rl_wbc_bridge.cpp:82-107", "src/pybind/rl_wbc_bridge.cpp:116-121"]}
{"id": "C132", "title": "The Python bridge reads the elements of the arrays it is given", "statement": "For every one-dimensional numpy array of the right length UpdateKinematics uses its elements, and for an array of another length it raises an error.", "quantifier": "all arrays (strides, sizes) and histories", "why_tests_cant": "tests pass freshly allocated arrays; slices and views are not tried", "anchors": ["src/pybind/rl_wbc_bridge.cpp:84-86", "src/pybind/rl_wbc_bridge.cpp:88-104"]}
{"id": "C133", "title": "Commands of the Python bridge do the first task", "statement": "After UpdateKinematics and then SetContact with one or two feet, any number of SetTaskSpace, CalcTorque and Reset calls, and CalcTorque, the command returned moves the robot so that the pelvis has exactly the acceleration last given as reference 0; with zero references the robot stands still. On two feet the contact force is a split of the one the gravity and task torque produce, with shares between 1/100 and 99/100. On one foot the sequence is always defined (if foot and tasks are independent); on two feet it is defined unless the moment about both feet vanishes along the heading.", "quantifier": "all robots, states, references and histories of calls", "why_tests_cant": "infinitely many histories and robots; no test drives the bridge", "anchors": ["src/pybind/rl_wbc_bridge.cpp:106-139", "src/dwbc.cpp:456-478", "src/dwbc.cpp:795-884"]}
{"id": "C134", "title": "Commands of the Python bridge respect the torque limit", "statement": "The constructor sets a limit of 300 for every joint; no component of a command exceeds it.", "quantifier": "all references and states", "why_tests_cant": "tests use references near equilibrium", "anchors": ["src/pybind/rl_wbc_bridge.cpp:40-42", "src/pybind/rl_wbc_bridge.cpp:123-129"]}
{"id": "C135", "title": "Reset of the Python bridge restarts the controller", "statement": "RlWBCBridge.Reset has an effect on the commands that follow.", "quantifier": "all programs", "why_tests_cant": "one would have to compare all programs with and without it", "anchors": ["src/pybind/rl_wbc_bridge.cpp:123-129", "src/pybind/rl_wbc_bridge.cpp:141-144"]}
{"id": "C136", "title": "Commands of the Python bridge depend on the last cycle only", "statement": "Two bridge objects with any histories, given the same UpdateKinematics, SetContact, both references and CalcTorque, return the same command; and CalcTorque called again without other calls changes nothing.", "quantifier": "all histories", "why_tests_cant": "quantifies over pairs of histories", "anchors": ["src/pybind/rl_wbc_bridge.cpp:82-139"]}
{"id": "C137", "title": "Commands of the Python bridge are for the state last given", "statement": "After UpdateKinematics, CalcTorque returns the command for the state just given: with zero references it keeps the robot at rest, also when SetContact is not called again because the feet on the ground are the same.", "quantifier": "all sequences of calls", "why_tests_cant": "a simulator test at rest shows no difference", "anchors": ["src/pybind/rl_wbc_bridge.cpp:106-114", "src/pybind/rl_wbc_bridge.cpp:126-128"]}
{"id": "C138", "title": "Every combination of feet can be set", "statement": "SetContact(left, right) works for all four combinations.", "quantifier": "all robots and states", "why_tests_cant": "no test lifts both feet", "anchors": ["src/pybind/rl_wbc_bridge.cpp:109-114", "src/dwbc.cpp:466-474"]}
{"id": "C139", "title": "ChangeLinkInertia changes one link, everywhere", "statement": "ChangeLinkInertia(name, I, c, m) gives the link whose name matches (whatever the case of the letters) the mass m, centre of mass c and inertia I, in link_ and in RBDL's body, spatial inertia and composite inertia alike; every other link and body keeps its parameters, so if the library's and RBDL's tables described the same bodies before the call they do so after it.", "quantifier": "for all robots whose link table and RBDL tables agree, all names, masses, centres of mass and inertias", "why_tests_cant": "Four tables must agree for every link of every robot; a test reads one entry of one robot.", "anchors": ["src/dwbc.cpp:2384-2397", "src/dwbc.cpp:2707-2730"]}
{"id": "C140", "title": "ChangeLinkInertia handles a wrong name", "statement": "ChangeLinkInertia called with a name no link has, or with \"COM\", leaves the robot as it was (or reports an error) instead of accessing memory outside a vector.", "quantifier": "for all robots and names", "why_tests_cant": "A test sees a crash at most; the access outside the vector usually goes unnoticed.", "anchors": ["src/dwbc.cpp:2384-2397", "src/dwbc.cpp:2707-2721"]}
{"id": "C141", "title": "The centre of mass follows a changed link mass", "statement": "After ChangeLinkInertia and UpdateKinematics, com_pos is the mass-weighted mean of the links' centres of mass, and total_mass_ the sum of the links' masses.", "quantifier": "for all robots with a floating base, all configurations, all changed links", "why_tests_cant": "The error is proportional to the displacement of the centre of mass from the base, a quantity no single comparison separates from rounding for a small change.", "anchors": ["src/dwbc.cpp:279-371", "src/dwbc.cpp:2707-2730"]}
{"id": "C142", "title": "A locked sub-tree may be replaced by its virtual inertia", "statement": "If the links of a sub-tree keep their poses relative to its first link, replacing them by the first link with the mass, centre of mass and inertia that CalcVirtualInertia returns (in the frame of that link) changes neither kinetic energy nor momentum nor angular momentum about any point at any joint velocity; hence the mass matrix is the same.", "quantifier": "for all kinematic trees with positive masses, all poses, all remaining links, all joint velocities and reference points", "why_tests_cant": "The equality of two quadratic forms in all joint velocities, for every tree.", "anchors": ["src/dwbc.cpp:2607-2705", "src/link.cpp:247-269"]}
{"id": "C143", "title": "CalcVirtualInertia returns one body in one frame", "statement": "The mass, centre of mass and inertia returned by CalcVirtualInertia describe one rigid body in one frame, and so can be passed on to ChangeLinkInertia.", "quantifier": "for all kinematic trees and all world poses of their first link", "why_tests_cant": "With the first link at the world pose used by a test (identity) the frames coincide.", "anchors": ["src/dwbc.cpp:2607-2705", "tests/sp_test/test_mod.cpp:199-221"]}
{"id": "C144", "title": "CalcVirtualCMM gives the angular momentum", "statement": "CalcVirtualCMM times any joint velocity is the angular momentum of the links about the given point, whether or not the list ends with the entry COM; for the robot's own links and com_pos it equals the lower three rows of CMM_.", "quantifier": "for all non-empty lists of links with proper orientations, all points, all joint velocities", "why_tests_cant": "A matrix identity for all link lists; a test compares one configuration.", "anchors": ["src/dwbc.cpp:1682-1709", "src/dwbc.cpp:279-371"]}
{"id": "C145", "title": "InitModelWithLinkJoint builds the tree the links describe", "statement": "For complete joints of the supported kinds and parents listed before their children, the RBDL model built has exactly one body per link, with the link's name and inertial parameters, on the kind of joint and axis asked for, attached to the body of the link's parent (to the world for a floating base and for a link without parent). The ids of the bodies are stored in the links, of which nothing else changes.", "quantifier": "for all lists of links and joints as described", "why_tests_cant": "Holds for trees of any shape and size; a test builds one robot.", "anchors": ["src/dwbc.cpp:2425-2471", "src/link.cpp:21-46", "src/link.cpp:238-245"]}
{"id": "C146", "title": "The virtual model has the pose of its links", "statement": "At zero joint angles every body of the model built by InitModelWithLinkJoint has the position and orientation the joints give its link.", "quantifier": "for all lists of links and joints as in C145, all poses compatible with them", "why_tests_cant": "A frame convention error shows only for joint frames that are not symmetric; robots whose joint frames are the identity pass every test.", "anchors": ["src/dwbc.cpp:2438", "src/link.cpp:62-63", "src/dwbc.cpp:158-178"]}
{"id": "C147", "title": "The joints of a loaded robot can be used to build a model", "statement": "InitModelWithLinkJoint succeeds on the links and joints InitModelData makes for a robot with a floating base.", "quantifier": "for all such robots", "why_tests_cant": "The members of the base's joint are uninitialised memory, whose contents differ from run to run.", "anchors": ["src/dwbc.cpp:158-178", "src/link.cpp:5-19", "src/dwbc.cpp:2438"]}
{"id": "C148", "title": "Point Jacobians of a link describe one rigid motion", "statement": "UpdateJac and GetPointJac succeed for every link of a tree. For all joint velocities, GetPointJac(p) gives the velocity of the point of the link at GetPointPos(p) and the link's angular velocity: that of jac_ plus the angular velocity times the arm; jac_com_ is the same for the centre of mass. Joints that are not on the way from the link to the root have zero columns.", "quantifier": "for all trees of one-degree joints, poses, points and joint velocities", "why_tests_cant": "A velocity identity for all points and velocities; a test compares one of them.", "anchors": ["src/link.cpp:98-129"]}
{"id": "C149", "title": "GetJacDot is the time derivative of the point Jacobian", "statement": "GetJacDot(model, q, q_dot, point) is the time derivative of GetPointJac(point) along q_dot; in particular it is zero at rest.", "quantifier": "for all links, points and joint velocities", "why_tests_cant": "The function is not called in the library and a wrong matrix of the right size passes unnoticed.", "anchors": ["src/link.cpp:131-182"]}
{"id": "C150", "title": "A matrix written by write_binary is confirmed by check_binary", "statement": "After write_binary(name, m), check_binary(name, m) reports OK for every matrix without NaN, and files of other names are judged as before.", "quantifier": "for all matrices of IEEE doubles, all orders of summation and all other files", "why_tests_cant": "Infinite entries (QP bounds) do not occur in the matrices the tests store.", "anchors": ["include/dwbc_util.h:14-67"]}
{"id": "C151", "title": "check_binary says OK only of the matrix that was written", "statement": "If check_binary(name, m) reports OK then m is entry by entry the matrix stored under that name; a finite matrix is reported as similar or different only if it is not that matrix.", "quantifier": "for all pairs of finite matrices", "why_tests_cant": "A difference whose square underflows cannot be met by comparing ordinary results.", "anchors": ["include/dwbc_util.h:30-67"]}
{"id": "C152", "title": "check_binary reports a missing file or a matrix of another size", "statement": "If there is no file of that name, or it holds a matrix of another size, check_binary reports a difference.", "quantifier": "for all files, names and matrices", "why_tests_cant": "The comparison of matrices of different sizes is undefined in a release build; a test that happens to pass says nothing.", "anchors": ["include/dwbc_util.h:30-67"]}
{"id": "C153", "title": "A contact's constraint matrix accepts exactly the wrenches it can hold", "statement": "Whatever calls are made on a ContactConstraint, GetContactConstMatrix() F >= 0 holds exactly for the wrenches within the friction ratios last set (0.2 before) and with the centre of pressure inside the plate given to the constructor.", "quantifier": "for all contact types, plate sizes, friction ratios, sequences of calls and wrenches", "why_tests_cant": "A cone has infinitely many wrenches and the order of the setter calls is the user's.", "anchors": ["src/contact_constraint.cpp:9-45", "src/contact_constraint.cpp:78-116"]}
{"id": "C154", "title": "A contact is on or off as last asked for", "statement": "After any sequence of SetContact, EnableContact, DisableContact and SetFrictionRatio the flag contact is the one last asked for, and false before.", "quantifier": "for all sequences of calls", "why_tests_cant": "The value before the first call is that of the memory; it depends on the run.", "anchors": ["src/contact_constraint.cpp:9-45", "src/contact_constraint.cpp:78-91"]}
{"id": "C155", "title": "The announced number of constraints is the number of rows of the matrix", "statement": "For every contact type constraint_number_ is the number of rows of GetContactConstMatrix().", "quantifier": "for all contact types and sequences of calls", "why_tests_cant": "Only plane contacts are used in the tests.", "anchors": ["src/contact_constraint.cpp:16-38", "src/contact_constraint.cpp:109-116"]}
{"id": "C156", "title": "Pseudo-inverses are the Moore-Penrose inverse", "statement": "PinvCODWB and PinvCOD return the Moore-Penrose inverse of every matrix they are given, so that X = pinv(W) satisfies W X W = W, X W X = X with both products symmetric.", "quantifier": "for all matrices and all valid decompositions Eigen may choose", "why_tests_cant": "Eigen decides the rank by comparing pivots to 1e-6 times the largest; tests use a few well conditioned robot matrices.", "anchors": ["src/wbd.cpp:5-30", "src/math.cpp:23-39"]}
{"id": "C157", "title": "The null-space output of PinvCODWB is a basis of the left null space", "statement": "PinvCODWB(A, V2) and PinvCOD(A, V2) fill V2 with an orthonormal basis of the rows y with y A = 0, for every A and also when the rank is forced.", "quantifier": "for all matrices, all forced ranks and all valid decompositions", "why_tests_cant": "The callers pass square matrices of the expected rank; other shapes and a wrong forced rank are not tried.", "anchors": ["src/wbd.cpp:32-53", "src/math.cpp:41-53"]}
{"id": "C158", "title": "getNullSpace returns a basis of the kernel", "statement": "getNullSpace(A) returns orthonormal columns spanning exactly the vectors x with A x = 0.", "quantifier": "for all matrices and all valid decompositions", "why_tests_cant": "The result depends on the rank decision of Eigen and on the shape; a numerical test sees single matrices.", "anchors": ["src/math.cpp:349-361"]}
{"id": "C159", "title": "HQP prepares every hierarchy", "statement": "HQP::prepare computes the null-space bases of all levels for every hierarchy of levels over the same variables.", "quantifier": "for all hierarchies", "why_tests_cant": "Hierarchies whose upper levels use up all variables are valid input but do not occur in the tests.", "anchors": ["src/dwbc_hqp.cpp:23-85", "src/math.cpp:349-361"]}
{"id": "C160", "title": "A_inv_ is the inverse of the inertia matrix for every robot with mass in all links", "statement": "For every positive definite A_ of any size, A_.llt().solve(Identity) succeeds, divides by no zero and yields X with A_ X = X A_ = 1, positive definite; the same for every set of links with positive definite spatial inertias whose coordinates all move some link. Only the lower triangle of A_ is read.", "quantifier": "all sizes, all positive definite matrices, all sets of links", "why_tests_cant": "Positive definiteness at every pivot of every matrix is not a finite check.", "anchors": ["src/dwbc.cpp:307", "src/dwbc.cpp:2958"]}
{"id": "C161", "title": "A_inv_ is the inverse of A_ or the failure is visible", "statement": "Whenever UpdateKinematics stores an A_inv_ for a symmetric A_ it is the inverse of A_; for a matrix that has none, or for which the factorisation fails, this is reported.", "quantifier": "all symmetric matrices", "why_tests_cant": "llt().info() is never read; on failure the numbers left behind are used and look like a proper inverse.", "anchors": ["src/dwbc.cpp:307", "src/dwbc.cpp:2958"]}
{"id": "C162", "title": "GetQuat gives the orientation of the link", "statement": "For every rotation matrix, GetQuat (and Rot2Quat) yields a unit quaternion q with q v q^-1 = rotm v for every vector v; every other such quaternion is q or -q.", "quantifier": "all rotation matrices", "why_tests_cant": "Four branches chosen by the matrix; a sign or index error in one of them shows only for orientations that reach it.", "anchors": ["src/link.cpp:121-124", "src/math.cpp:323-328"]}
{"id": "C163", "title": "GetQuat picks the representative with non-negative w", "statement": "Of the two quaternions of an orientation GetQuat yields the one with w >= 0, so that it does not jump between orientations closer than half a turn to the reference.", "quantifier": "all rotation matrices", "why_tests_cant": "The sign changes at 120 degrees, for some axes and directions only.", "anchors": ["src/link.cpp:121-124", "src/math.cpp:323-328"]}
{"id": "C164", "title": "EnableEqualityCondition and DisableEqualityCondition decide how the next solve treats equalities", "statement": "After EnableEqualityCondition(tol) SolveQPoases treats equal bounds as equalities, with the given tolerance; after DisableEqualityCondition it does not.", "quantifier": "every history of calls and every solver", "why_tests_cant": "The options are overwritten inside SolveQPoases; results differ only on degenerate problems.", "anchors": ["src/qp_wrapper.cpp:158-168", "src/qp_wrapper.cpp:229-236", "src/qp_wrapper.cpp:315", "src/dwbc.cpp:3930", "src/dwbc.cpp:4104", "src/dwbc.cpp:4289"]}
{"id": "C165", "title": "Both solver back ends of a hierarchy level have the same optimal answers", "statement": "After a sequential solve (or solvefirst for the top level), HQP_Hierarch::solve, which gives the level to qpOASES with the slack variables bounded below by zero, and solveOSQP, which gives it to OSQP without these bounds, have exactly the same optimal answers, slacks included, as long as no coefficient is dropped by the sparse conversion.", "quantifier": "all numbers of levels, sizes, matrices, weights and solver answers", "why_tests_cant": "equality of two sets of minimisers", "anchors": ["src/dwbc_hqp.cpp:222-289", "src/dwbc_hqp.cpp:291-395", "src/dwbc_hqp.cpp:583-656"]}
{"id": "C166", "title": "Every solve of a hierarchy answers for its current matrices", "statement": "Whatever matrices the levels of an HQP object hold when solveSequential is called, the answers of the levels are OSQP's answers for the problems built from these matrices, whether init is true (the default) or false.", "quantifier": "all numbers of levels, sizes, matrices, earlier problems and solver answers", "why_tests_cant": "the state of the solver objects between calls matters; a test that solves once cannot see it", "anchors": ["src/dwbc_hqp.cpp:397-403", "src/dwbc_hqp.cpp:475", "src/dwbc_hqp.cpp:583-631", "include/dwbc_hqp.h:120-122"]}
{"id": "C167", "title": "A copy of an HQP object can be solved independently of the original", "statement": "After copying an HQP object, solving the original does not influence the answers of the copy.", "quantifier": "all numbers of levels, sizes, matrices and solver answers", "why_tests_cant": "sharing through a raw pointer in a class with an implicit copy constructor", "anchors": ["include/dwbc_hqp.h:9-112", "include/dwbc_hqp.h:110-145", "src/dwbc_hqp.cpp:408-414", "src/dwbc_hqp.cpp:475", "src/dwbc_hqp.cpp:583-631"]}
{"id": "C168", "title": "The link transforms carry twists and wrenches between frames", "statement": "GetSpatialTranform of a link maps a twist in the link's frame to the twist at the world's origin, GetAdjointMatrix maps a wrench likewise; together they preserve power, they compose along frames, are undone by the inverse frame, and the wrench transform of spatial inertia times twist is the link's linear momentum and its angular momentum about the world's origin.", "quantifier": "all positions, rotations, twists, wrenches, masses, centres of mass and inertias", "why_tests_cant": "identities over all rigid displacements; the order of the blocks and the sign of the moment arm look plausible either way", "anchors": ["src/link.cpp:184-198", "src/link.cpp:200-219", "src/math.cpp:293-302"]}
{"id": "C169", "title": "UpdateKinematics is defined after every modification of the link tree", "statement": "After DeleteLink or AddLink, UpdateKinematics records for every joint the frame of the body of its own link, within the bounds of joint_.", "quantifier": "all link trees, links, frames and postures", "why_tests_cant": "an index past the end of a vector need not crash; needs the invariant relating link_ and joint_", "anchors": ["src/dwbc.cpp:310-318", "src/dwbc.cpp:2105-2134", "src/dwbc.cpp:2285-2316"]}
{"id": "C170", "title": "AddLink with a floating joint makes the link a full member of the tree", "statement": "AddLink with JOINT_6DOF appends the link under its parent with six more degrees of freedom, counts its mass, gives it a joint, and DeleteLink of the new link restores the previous tree.", "quantifier": "all well formed link trees, parents, unused names, frames and bodies", "why_tests_cant": "the tests never add a floating link; RBDL's hidden massless bodies are visible only through the degree of freedom count after a later deletion", "anchors": ["src/dwbc.cpp:2125-2145", "src/dwbc.cpp:2317-2333", "src/dwbc.cpp:1790-2033"]}
{"id": "C171", "title": "Redistribution of the reduced model uses the positions of the two active feet", "statement": "When two plane contacts are active, CalcContactRedistributeR(hqp = false) splits the contact wrench between these two feet, whatever other contacts are registered.", "quantifier": "all robots on two feet of their twelve leading joints, contact lists, torques", "why_tests_cant": "needs the contact force that the torque really produces, for every list of registered contacts", "anchors": ["src/dwbc.cpp:4942-4990"]}
{"id": "C172", "title": "A custom task keeps the Jacobian given with SetTaskSpace", "statement": "After SetTaskSpace(h, f_star, J_task) on a task of type TASK_CUSTOM, UpdateTaskSpace leaves its Jacobian and its reference as given, however often it is called.", "quantifier": "all histories of task registrations and updates, all Jacobians and references", "why_tests_cant": "the zeroing depends on whether a link was ever added to the task, over any history of registrations", "anchors": ["src/dwbc.cpp:685-760"]}
{"id": "C173", "title": "Adding a link to a task leaves the rest of the task as it was", "statement": "AddTaskLink appends the link with its degrees of freedom; the links already in the task keep their place, their trajectories and the reference given for them, and the other tasks do not change.", "quantifier": "all registries, task indices, link modes, links and points", "why_tests_cant": "the reference of the earlier links may have been given by any history of calls; all fields of all tasks have to be compared", "anchors": ["src/task.cpp:66-75", "src/dwbc.cpp:603-621"]}
