{"id": "C01", "title": "Component count", "statement": "Nhc(h) returns one component for harmonic 0 when it is present plus two for every other harmonic, and it fails exactly when h has a repeated entry.", "quantifier": "all finite lists of harmonics", "why_tests_cant": "Lists of harmonics are unbounded in length and content; a test samples a few.", "anchors": ["tmdsimpy/utils/harmonic.py:Nhc"]}
{"id": "C02", "title": "Time series sampling and derivatives", "statement": "time_series_deriv(Nt,h,X0,order) returns, at the Nt equally spaced instants of one period, the order-th derivative (with respect to the phase w*t) of the trigonometric polynomial whose coefficients are X0.", "quantifier": "all duplicate-free harmonic lists with 0 first if present, all coefficients, all even Nt > 2 max(h)+1, all orders >= 0, all sample instants", "why_tests_cant": "The identity must hold for every harmonic set, sample count and derivative order at once.", "anchors": ["tmdsimpy/utils/harmonic.py:time_series_deriv"]}
{"id": "C03", "title": "Fourier round trip", "statement": "Extracting Fourier coefficients from a sampled series gives back the coefficients it was sampled from: get_fourier_coeff(h, time_series_deriv(Nt,h,X,0)) = X.", "quantifier": "all duplicate-free harmonic lists with 0 first if present, all coefficients, all even Nt > 2 max(h)+1", "why_tests_cant": "Depends on orthogonality of sampled sines and cosines for every Nt and every pair of harmonics; tests only try a few sizes.", "anchors": ["tmdsimpy/utils/harmonic.py:time_series_deriv", "tmdsimpy/utils/harmonic.py:get_fourier_coeff"]}
{"id": "C04", "title": "Sample count and argument checks of the AFT transforms", "statement": "time_series_deriv returns exactly Nt samples for every Nt it accepts, rejects Nt that would truncate a harmonic, and rejects a zeroth harmonic that is not first.", "quantifier": "all Nt, all harmonic lists", "why_tests_cant": "The number of returned rows depends on the parity of Nt; only a universally quantified statement exposes it.", "anchors": ["tmdsimpy/utils/harmonic.py:time_series_deriv", "tmdsimpy/utils/harmonic.py:get_fourier_coeff"]}
{"id": "C05", "title": "Harmonic stiffness is the linear equation of motion", "statement": "Multiplying the harmonic coefficients of u(t) by harmonic_stiffness(M,C,K,w,h) gives the harmonic coefficients of M u'' + C u' + K u at fundamental frequency w.", "quantifier": "all sizes, all M, C, K (symmetric or not), all w, all admissible harmonic lists, all coefficient vectors, all times", "why_tests_cant": "A claim about an infinite family of matrices and continuous time.", "anchors": ["tmdsimpy/utils/harmonic.py:harmonic_stiffness"]}
{"id": "C06", "title": "Frequency derivative of the harmonic stiffness", "statement": "The second output of harmonic_stiffness is the exact derivative of the first with respect to w, entry by entry, with and without only_C; only_C gives the same matrix as passing M=K=0, and calc_grad=False returns the same first output.", "quantifier": "all matrices, frequencies, harmonic lists and flags", "why_tests_cant": "Finite-difference tests only check a few points to a tolerance.", "anchors": ["tmdsimpy/utils/harmonic.py:harmonic_stiffness"]}
{"id": "C07", "title": "Phase rotation is a time shift", "statement": "rotate_subtract_phase delays every harmonic solution by the same time, so that the response at phase tau becomes the original at tau - phase_angle/h_rotate; the extra columns are untouched, rotations compose additively and rotating back restores the input.", "quantifier": "all solutions, harmonic lists, angles, target harmonics, times", "why_tests_cant": "Consistency across harmonics is a functional identity in continuous time.", "anchors": ["tmdsimpy/utils/harmonic.py:rotate_subtract_phase"]}
{"id": "C08", "title": "Phase wrapping", "statement": "shift_pm_pi returns a phase in [-pi, pi) that differs from the input by a multiple of 2 pi.", "quantifier": "all real phases", "why_tests_cant": "A congruence over all reals; the function is documented as untested.", "anchors": ["tmdsimpy/utils/harmonic.py:shift_pm_pi"]}
{"id": "C09", "title": "Harmonic-wise conditioning", "statement": "harmonic_wise_conditioning returns a vector of the size of X that is at least the minimum delta everywhere, constant on each harmonic with the value max(delta, mean absolute value of that harmonic), and max(delta,|x|) on the extra entries.", "quantifier": "all X, Ndof, harmonic lists, number of extra entries, scalar or per-harmonic delta", "why_tests_cant": "Slicing logic depends on the number of extras relative to Ndof; few combinations are tested.", "anchors": ["tmdsimpy/utils/harmonic.py:harmonic_wise_conditioning"]}
{"id": "C10", "title": "Zero crossings", "statement": "zero_crossing flags index i exactly when the signal changes sign between i and i+1 and is within the tolerance there.", "quantifier": "all vectors, all tolerances", "why_tests_cant": "Documented as untested; boundary cases with exact zeros must be covered for every vector.", "anchors": ["tmdsimpy/utils/harmonic.py:zero_crossing"]}
{"id": "C11", "title": "Polynomial elements: force and gradient", "statement": "CubicForce, QuinticForce and GenPolyForce return T f(Q X) for the documented polynomial f, and the returned matrix is the Jacobian of that force.", "quantifier": "all displacement vectors, all Q, T, coefficients and exponent tables of any size", "why_tests_cant": "The derivative identity must hold at every displacement and for every exponent table including zeros.", "anchors": ["tmdsimpy/nlforces/cubic_stiffness.py:CubicForce", "tmdsimpy/nlforces/quintic_stiffness.py:QuinticForce", "tmdsimpy/nlforces/general_poly_stiffness.py:GenPolyForce"]}
{"id": "C12", "title": "Local force histories carry the right time derivatives", "statement": "local_force_history of CubicForce, QuinticForce, CubicDamping, UnilateralSpring and the Iwan backbone returns at every instant the element force and its derivatives with respect to displacement and velocity (away from the kink for the piecewise elements).", "quantifier": "all displacement and velocity histories, all parameters", "why_tests_cant": "Pointwise derivative claims over the reals.", "anchors": ["tmdsimpy/nlforces/cubic_stiffness.py:local_force_history", "tmdsimpy/nlforces/cubic_damping.py:local_force_history", "tmdsimpy/nlforces/unilateral_spring.py:local_force_history", "tmdsimpy/nlforces/iwan_bb_conserve.py:local_force_history"]}
{"id": "C13", "title": "Unilateral spring law", "statement": "The unilateral spring force is k(u-delta)-Npreload in contact and -Npreload out of contact, is continuous and nondecreasing in u, never pulls beyond -Npreload, and its gradient is the derivative everywhere except the contact point.", "quantifier": "all displacements, k > 0, all gaps and preloads", "why_tests_cant": "Piecewise law over all reals.", "anchors": ["tmdsimpy/nlforces/unilateral_spring.py:UnilateralSpring"]}
{"id": "C14", "title": "Conservative Iwan backbone law", "statement": "The backbone force is odd, continuous at macroslip, bounded by Fs, nondecreasing, equal to Fs beyond phi_max, and the returned gradient is its derivative away from macroslip.", "quantifier": "all displacements and all admissible kt, Fs, chi, beta", "why_tests_cant": "Involves real powers; tests compare a few numbers.", "anchors": ["tmdsimpy/nlforces/iwan_bb_conserve.py:ConservativeIwanBB"]}
{"id": "C15", "title": "Instantaneous AFT is exact and has an exact Jacobian", "statement": "For an instantaneous element with correct local derivatives, aft returns the Fourier coefficients of T f(Q u(t), Q u'(t)) sampled over a period, dFnldU is its Jacobian with respect to the harmonic coefficients and dFnldw its derivative with respect to frequency.", "quantifier": "all coefficient vectors, frequencies w /= 0, harmonic lists, Nt, Q, T, local laws", "why_tests_cant": "Jacobian of a composition through the DFT for every size; tests are finite differences on examples.", "anchors": ["tmdsimpy/nlforces/nonlinear_force.py:InstantaneousForce.aft"]}
{"id": "C16", "title": "Jenkins slip bound over any loading history", "statement": "After any sequence of displacements the Jenkins element force stays within its slip limit, and evaluations without update leave the stored state and later results unchanged.", "quantifier": "all parameters with Fs >= 0, all sequences of evaluate/update/initialise calls", "why_tests_cant": "Histories are unbounded.", "anchors": ["tmdsimpy/nlforces/jenkins_element.py:JenkinsForce"]}
{"id": "C17", "title": "Friction dissipation", "statement": "Over any history the work done on a Jenkins, Iwan or elastic dry friction element is at least the change of stored elastic energy, and no cycle returned by a force history ever creates energy, whether or not it is the steady state.", "quantifier": "all displacement histories, starting positions, tolerances and numbers of repeats", "why_tests_cant": "Inequality over arbitrary-length histories.", "anchors": ["tmdsimpy/nlforces/jenkins_element.py:JenkinsForce.force", "tmdsimpy/nlforces/jenkins_element.py:JenkinsForce.instant_force", "tmdsimpy/nlforces/iwan4_element.py:Iwan4Force", "tmdsimpy/jax/nlforces/elastic_dry_fric_2d.py", "tmdsimpy/jax/nlforces/jenkins_element.py"]}
{"id": "C18", "title": "Two cycles reach the steady state", "statement": "The forces of the second pass over a period are the periodic steady-state forces: any further pass reproduces them exactly, for Jenkins, Iwan sliders and elastic dry friction (with time-varying normal load).", "quantifier": "all periodic histories of any length, all initial slider positions, all slip limits >= 0", "why_tests_cant": "The library relies on it for every motion; tests compare two cases.", "anchors": ["tmdsimpy/nlforces/nonlinear_force.py:HystereticForce.local_force_history", "tmdsimpy/jax/nlforces/jenkins_element.py:_local_aft_jenkins", "tmdsimpy/jax/nlforces/elastic_dry_fric_2d.py:_local_aft_eldry"]}
{"id": "C19", "title": "Hysteretic AFT returns the steady state", "statement": "HystereticForce.local_force_history returns the periodic steady-state force of the element.", "quantifier": "all periodic histories, tolerances and repeat limits", "why_tests_cant": "The convergence test can stop after one pass; only a search over all histories reveals it.", "anchors": ["tmdsimpy/nlforces/nonlinear_force.py:HystereticForce.local_force_history"]}
{"id": "C20", "title": "Vectorised Jenkins equals the sequential element", "statement": "VectorJenkins returns the same force history and the same harmonic derivatives as JenkinsForce.", "quantifier": "all histories, parameters and harmonic lists", "why_tests_cant": "Equality of two algorithms on all reversal patterns.", "anchors": ["tmdsimpy/nlforces/vector_jenkins.py:VectorJenkins.local_force_history"]}
{"id": "C21", "title": "Vectorised Iwan equals the sequential element", "statement": "VectorIwan4 returns the same force history as Iwan4Force.", "quantifier": "all histories, parameters, numbers of sliders", "why_tests_cant": "Equality of two algorithms on all reversal patterns.", "anchors": ["tmdsimpy/nlforces/vector_iwan4.py:VectorIwan4.local_force_history"]}
{"id": "C22", "title": "Hysteretic derivatives with respect to harmonic coefficients", "statement": "The derivative history of a hysteretic element is the derivative of its force history with respect to the harmonic coefficients wherever no step is exactly at the slip limit.", "quantifier": "all histories and harmonic coefficient directions", "why_tests_cant": "Derivative of an unbounded recursion.", "anchors": ["tmdsimpy/nlforces/jenkins_element.py:instant_force_harmonic", "tmdsimpy/nlforces/nonlinear_force.py:HystereticForce.local_force_history"]}
{"id": "C23", "title": "Iwan slider discretisation", "statement": "Iwan4Force divides [0, phi_max] into slider cells that fill the interval exactly; every slider force stays within its own limit, so the element force never exceeds the sum of weighted slider limits, and for chi = 0 the initial stiffness is kt and the limit force is Fs exactly.", "quantifier": "all parameters, numbers of sliders, growth ratios and histories", "why_tests_cant": "Holds for every slider count and ratio; also every history.", "anchors": ["tmdsimpy/nlforces/iwan4_element.py:Iwan4Force"]}
{"id": "C24", "title": "Prestress switching round trip", "statement": "After any sequence of set_prestress_mu / reset_real_mu calls that ends in reset_real_mu, the element has the friction it was built with; after a sequence ending in set_prestress_mu it is frictionless.", "quantifier": "all call sequences, all systems of elements", "why_tests_cant": "Unbounded call histories, including failure part-way through a system.", "anchors": ["tmdsimpy/nlforces/jenkins_element.py:set_prestress_mu", "tmdsimpy/vibration_system.py:VibrationSystem.set_prestress_mu", "tmdsimpy/vibration_system.py:VibrationSystem.reset_real_mu"]}
{"id": "C25", "title": "Static history is independent of harmonic evaluations", "statement": "Evaluating aft on an element does not change what a later static force evaluation returns.", "quantifier": "all interleavings of static and harmonic evaluations", "why_tests_cant": "Shared mutable state; only arbitrary interleavings expose it.", "anchors": ["tmdsimpy/nlforces/nonlinear_force.py:HystereticForce", "tmdsimpy/nlforces/jenkins_element.py:JenkinsForce"]}
{"id": "C26", "title": "Elastic dry friction contact law", "statement": "Elastic dry friction elements give a nonnegative normal force that vanishes out of contact, and tangential forces bounded by mu times the current normal force at every instant, with zero friction after separation.", "quantifier": "all displacement histories, all mu >= 0, all stiffnesses", "why_tests_cant": "Unbounded histories with varying normal load.", "anchors": ["tmdsimpy/jax/nlforces/elastic_dry_fric_2d.py", "tmdsimpy/jax/nlforces/elastic_dry_fric_3d.py"]}
{"id": "C27", "title": "Static elastic dry friction keeps its force history", "statement": "After a static evaluation that updates the history, evaluating again at the same displacement returns the same force.", "quantifier": "all displacement sequences", "why_tests_cant": "A history property over arbitrary sequences of updates.", "anchors": ["tmdsimpy/jax/nlforces/elastic_dry_fric_2d.py:force", "tmdsimpy/jax/nlforces/elastic_dry_fric_2d.py:_local_eldy_force"]}
{"id": "C28", "title": "JAX Jenkins agrees with the reference Jenkins", "statement": "The JAX Jenkins element computes the steady-state Jenkins force for its fixed initial slider position, i.e. the same force as two passes of the reference element started there.", "quantifier": "all periodic histories and parameters", "why_tests_cant": "Equality of two algorithms on all histories.", "anchors": ["tmdsimpy/jax/nlforces/jenkins_element.py:_local_aft_jenkins"]}
{"id": "C29", "title": "JAX vectorised Jenkins keeps all reversals", "statement": "The critical points kept by the JAX vectorised Jenkins element include every reversal, so its result is the steady-state Jenkins force.", "quantifier": "all sampled trigonometric polynomials of the declared order", "why_tests_cant": "Number of reversal samples depends on sampling coincidences.", "anchors": ["tmdsimpy/jax/nlforces/vector_jenkins.py:_local_aft_jenkins"]}
{"id": "C30", "title": "Convergence flags use the tolerances they are named after", "statement": "The stopping test reports convergence exactly when one of the listed quantities (residual, step, energy; absolute or relative) is below its tolerance, each compared with the quantity it is documented for.", "quantifier": "all lists of tolerance names and all values", "why_tests_cant": "Decision table over all combinations.", "anchors": ["tmdsimpy/jax/solvers.py:_check_convg"]}
{"id": "C31", "title": "Newton/BFGS solver protocol", "statement": "nsolve reports success only if the stopping (or accepting) tolerance holds at the returned point, uses at most max_steps iterations, forms a fresh Jacobian exactly at iterations 0, reform_freq, 2*reform_freq, ..., and returns the residual of the last evaluated iterate.", "quantifier": "all residual functions, starting points and configurations", "why_tests_cant": "Quantifies over every residual function and every run of the loop.", "anchors": ["tmdsimpy/jax/solvers.py:NonlinearSolverOMP.nsolve"]}
{"id": "C32", "title": "Solver configuration is not changed by a call", "statement": "Calling nsolve leaves the solver configuration as it was, whatever happens in the residual function.", "quantifier": "all calls, including residual functions that raise at any iteration", "why_tests_cant": "Exceptions can occur at any evaluation.", "anchors": ["tmdsimpy/jax/solvers.py:NonlinearSolverOMP.nsolve"]}
{"id": "C33", "title": "Line search bracketing", "statement": "line_search returns a step fraction in (0,1], never more than the configured number of bisections, brackets a sign change of the directional residual at every bisection and, with same_sign set, returns a step whose directional residual has not changed sign unless no such step was found.", "quantifier": "all residual functions, points, directions and tolerances", "why_tests_cant": "Loop invariant over arbitrary functions.", "anchors": ["tmdsimpy/jax/solvers.py:NonlinearSolverOMP.line_search"]}
{"id": "C34", "title": "BFGS two-loop recursion satisfies the secant equation", "statement": "The BFGS update maps the latest residual change to the latest step and reduces to the factored Jacobian solve when no update is stored.", "quantifier": "all dimensions, all stored pairs with non-zero curvature, all factorisations", "why_tests_cant": "Algebraic identity for any number of stored pairs.", "anchors": ["tmdsimpy/jax/solvers.py:NonlinearSolverOMP.nsolve"]}
{"id": "C35", "title": "Conditioned residual is equivalent to the physical one", "statement": "conditioning_wrapper solves the same equations: roots correspond through Xp = CtoP*Xc, and the returned Jacobian is the Jacobian of the conditioned residual.", "quantifier": "all residual functions, all positive conditioning vectors, scalar or vector RPtoC", "why_tests_cant": "Chain rule for every function and size.", "anchors": ["tmdsimpy/solvers.py:NonlinearSolver.conditioning_wrapper", "tmdsimpy/solvers.py:NonlinearSolver._conditioned_fun"]}
{"id": "C36", "title": "Eigenvalue requests do not depend on earlier calls", "statement": "eigs with default arguments returns the lowest min(3,N) eigenpairs whatever calls were made before.", "quantifier": "all sequences of calls", "why_tests_cant": "Hidden state shared between calls; tests use fresh processes.", "anchors": ["tmdsimpy/solvers.py:NonlinearSolver.eigs"]}
{"id": "C37", "title": "Predictor has unit arc length and keeps direction", "statement": "The continuation predictor lies in the kernel of the scaled Jacobian, has unit length in the arc-length metric and is oriented along the previous step.", "quantifier": "all Jacobians, solutions and previous directions for which the predictor system is solved", "why_tests_cant": "Holds for every problem and metric weight b.", "anchors": ["tmdsimpy/continuation.py:Continuation.predict"]}
{"id": "C38", "title": "Arc-length residuals and gradients", "statement": "pseudo_arc_res vanishes exactly on the sphere of radius ds in the arc-length metric, orthogonal_arc_res exactly on the hyperplane through the prediction normal to the tangent, and both gradients are exact derivatives.", "quantifier": "all points, previous points, weights and step sizes", "why_tests_cant": "Derivative identities over the reals.", "anchors": ["tmdsimpy/continuation.py:Continuation.pseudo_arc_res", "tmdsimpy/continuation.py:Continuation.orthogonal_arc_res"]}
{"id": "C39", "title": "Corrector system", "statement": "The augmented corrector residual is the scaled physical residual with the arc-length equation appended and its matrix is the exact Jacobian in conditioned coordinates.", "quantifier": "all residual functions and conditioning", "why_tests_cant": "Chain rule for every function.", "anchors": ["tmdsimpy/continuation.py:Continuation.correct_res"]}
{"id": "C40", "title": "Continuation returns only converged points", "statement": "Every point returned by continuation() was accepted by the corrector with success, whatever the solver, residual and callback do.", "quantifier": "all solvers, residual functions, configurations", "why_tests_cant": "Depends on the control flow for every success/failure sequence.", "anchors": ["tmdsimpy/continuation.py:Continuation.continuation"]}
{"id": "C41", "title": "Continuation range, size and step control", "statement": "continuation returns at most MaxSteps points, all but the last strictly before lam1 in the direction of travel, every adapted step size stays in [dsmin, dsmax], and failed steps are retried with halved steps down to dsmin.", "quantifier": "all solver outcomes and configurations", "why_tests_cant": "Invariant of a loop driven by an arbitrary solver.", "anchors": ["tmdsimpy/continuation.py:Continuation.continuation"]}
{"id": "C42", "title": "Continuation callback protocol", "statement": "The callback is called once with the initial point, once per accepted point in order, and once at the end, and what it saw equals what is returned.", "quantifier": "all runs", "why_tests_cant": "Trace property over every run.", "anchors": ["tmdsimpy/continuation.py:Continuation.continuation"]}
{"id": "C43", "title": "Continuation settings survive a run", "statement": "A second continuation() call with the same object behaves as the first: settings and user-supplied lists are not modified.", "quantifier": "all configurations, sequences of constructions and runs", "why_tests_cant": "Hidden mutation of configuration.", "anchors": ["tmdsimpy/continuation.py:Continuation.__init__", "tmdsimpy/continuation.py:Continuation.continuation"]}
{"id": "C44", "title": "Saved continuation history equals the calls", "statement": "After any sequence of continuation_save callbacks the file holds exactly the sequence of saved points and directions in order, and an interrupted save never loses points saved before.", "quantifier": "all call sequences, file names and crash points", "why_tests_cant": "Histories and crash points.", "anchors": ["tmdsimpy/utils/continuation.py:continuation_save"]}
{"id": "C45", "title": "Linear interpolation of continuation results", "statement": "linear_interp reproduces stored points exactly, is the linear interpolant between neighbours, and never extrapolates.", "quantifier": "all tables with increasing reference values, all query points", "why_tests_cant": "Floor/boundary logic for every table and query.", "anchors": ["tmdsimpy/postprocess/continuation.py:linear_interp"]}
{"id": "C46", "title": "Hermite upsampling passes through the data with its tangents", "statement": "hermite_interp and hermite_upsample return curves that pass through every stored point and have the stored tangent slope there; upsampling by n returns (M-1)*n+1 points.", "quantifier": "all tables with increasing parameter, all factors", "why_tests_cant": "Interpolation identity for every table.", "anchors": ["tmdsimpy/postprocess/continuation.py:hermite_interp", "tmdsimpy/postprocess/continuation.py:hermite_upsample"]}
{"id": "C47", "title": "Damping matrix consistency", "statement": "The damping matrix used by all residuals is the one last set: ab[0] M + ab[1] K when ab is given, C when C is given, unchanged when neither is given, and linear_frf uses the same damping.", "quantifier": "all sequences of construction and set_new_C calls", "why_tests_cant": "Call sequences.", "anchors": ["tmdsimpy/vibration_system.py:VibrationSystem.__init__", "tmdsimpy/vibration_system.py:VibrationSystem.set_new_C"]}
{"id": "C48", "title": "Static residual", "statement": "static_res returns K u plus the sum of all element forces minus the applied force, with its exact Jacobian.", "quantifier": "all systems with any number of elements, all displacements", "why_tests_cant": "Any number and kind of elements.", "anchors": ["tmdsimpy/vibration_system.py:VibrationSystem.static_res"]}
{"id": "C49", "title": "Harmonic balance residual", "statement": "hbm_res returns E(w) U + Fnl(U,w) - Fl with exact Jacobians in U and w; it vanishes exactly when the harmonic coefficients of the equation of motion balance.", "quantifier": "all systems, coefficients, frequencies, forcing", "why_tests_cant": "Identity and derivatives for every system.", "anchors": ["tmdsimpy/vibration_system.py:VibrationSystem.hbm_res", "tmdsimpy/vibration_system.py:VibrationSystem.total_aft"]}
{"id": "C50", "title": "Force-scaled harmonic balance residual", "statement": "hbm_res_dFl scales only the dynamic part of the force, leaves the static force alone, and its Jacobian including the derivative in the force scale is exact.", "quantifier": "all systems and inputs", "why_tests_cant": "Derivative identity for every system.", "anchors": ["tmdsimpy/vibration_system.py:VibrationSystem.hbm_res_dFl"]}
{"id": "C51", "title": "Amplitude and phase control residuals", "statement": "hbm_amp_control_res, hbm_amp_phase_control_res and hbm_amp_phase_control_dA_res vanish exactly when harmonic balance holds and the recovered first harmonic has the prescribed amplitude (and zero sine part); their Jacobians are exact.", "quantifier": "all systems, orders, amplitudes, recovery vectors", "why_tests_cant": "Derivative identity for every system, order and frequency.", "anchors": ["tmdsimpy/vibration_system.py:VibrationSystem.hbm_amp_control_res", "tmdsimpy/vibration_system.py:VibrationSystem.hbm_amp_phase_control_res", "tmdsimpy/vibration_system.py:VibrationSystem.hbm_amp_phase_control_dA_res"]}
{"id": "C52", "title": "EPMC residual", "statement": "epmc_res balances the self-excited equation of motion at the scaled amplitude with unit modal mass and phase constraint, and its Jacobian (including the log-amplitude column) is exact.", "quantifier": "all systems, mode shapes, frequencies, damping ratios and amplitudes", "why_tests_cant": "Derivative identity for every system; the mass gradient needs every M.", "anchors": ["tmdsimpy/vibration_system.py:VibrationSystem.epmc_res"]}
{"id": "C53", "title": "Base excitation residual", "statement": "hbm_base_res equals the harmonic balance residual of the full system restricted to the free DOFs with the base motion prescribed, and its Jacobian is exact.", "quantifier": "all systems, base DOF sets and base motions", "why_tests_cant": "Identity for every partition.", "anchors": ["tmdsimpy/vibration_system.py:VibrationSystem.hbm_base_res"]}
{"id": "C54", "title": "Linear frequency response", "statement": "linear_frf with all modes solves the linear harmonic equation exactly: the returned cosine and sine response satisfies (K-w^2 M)x + wC x' = f for the proportional damping used.", "quantifier": "all systems with mass-normalised modes, all frequencies with non-singular modal response, all cosine and sine forces", "why_tests_cant": "Identity for every system size.", "anchors": ["tmdsimpy/vibration_system.py:VibrationSystem.linear_frf"]}
{"id": "C55", "title": "Linear base-excitation response", "statement": "linear_frf_base agrees with the linear base-excited equation that hbm_base_res uses.", "quantifier": "all systems and base motions, including mass coupling between base and free DOFs", "why_tests_cant": "Agreement must hold for every mass matrix.", "anchors": ["tmdsimpy/vibration_system.py:VibrationSystem.linear_frf_base"]}
{"id": "C56", "title": "VPRNM phase residual", "statement": "The VPRNM equation is a normalised inner product: it lies in [-1,1], is zero exactly when the superharmonic response is in quadrature with the nonlinear force, does not depend on harmonics at or above the superharmonic for its force, and its gradient is exact.", "quantifier": "all systems and inputs with non-zero response and force", "why_tests_cant": "Inequality and derivative for every input.", "anchors": ["tmdsimpy/vibration_system.py:VibrationSystem.vprnm_single_eqn", "tmdsimpy/vibration_system.py:VibrationSystem.vprnm_res"]}
{"id": "C57", "title": "Shooting dynamics include every nonlinear force", "statement": "The state derivative used in shooting is -M^-1(K u + C v + sum of all nonlinear forces - forcing) and its Jacobian is consistent with it.", "quantifier": "all systems with any number of nonlinear forces", "why_tests_cant": "Number of forces is arbitrary.", "anchors": ["tmdsimpy/vibration_system.py:_shooting_state_space"]}
{"id": "C58", "title": "Shooting residual and Floquet stability", "statement": "shooting_res is zero exactly when the trajectory is periodic, its Jacobian follows from the monodromy matrix, and time_stability reports stable exactly when no multiplier exceeds one in modulus.", "quantifier": "all flows", "why_tests_cant": "Holds for any flow map.", "anchors": ["tmdsimpy/vibration_system.py:VibrationSystem.shooting_res", "tmdsimpy/postprocess/shooting.py:time_stability"]}
{"id": "C59", "title": "EPMC reduced model: constant force", "statement": "Every point returned by the constant-force EPMC reduced model satisfies the modal amplitude equation for the given forcing, both frequency branches are returned and only those with real positive frequency, and the phase balances the modal equation.", "quantifier": "all backbones and forcings", "why_tests_cant": "Algebraic identity for every backbone point.", "anchors": ["tmdsimpy/roms/epmc.py:constant_force"]}
{"id": "C60", "title": "EPMC reduced model: constant displacement inverts constant force", "statement": "The force returned by the constant-displacement model at a frequency found by the constant-force model is the original force.", "quantifier": "all backbones, forcings and frequencies", "why_tests_cant": "Round trip for every point.", "anchors": ["tmdsimpy/roms/epmc.py:constant_displacement", "tmdsimpy/roms/epmc.py:constant_force"]}
{"id": "C61", "title": "Rough contact asperity law", "statement": "Asperity normal forces are nonnegative and vanish out of contact; unloading starts at the maximum force reached and coincides with loading when the maximum was elastic; the largest displacement and force remembered never decrease.", "quantifier": "all displacement histories and material parameters", "why_tests_cant": "Histories and piecewise laws with real powers.", "anchors": ["tmdsimpy/jax/nlforces/roughcontact/_asperity_functions.py", "tmdsimpy/jax/nlforces/roughcontact/rough_contact.py"]}
{"id": "C62", "title": "Rough contact friction", "statement": "Asperity tangential force never exceeds mu times the asperity normal force, and two passes over a period reach the steady state.", "quantifier": "all histories", "why_tests_cant": "The time-varying stiffness makes the two-pass claim a statement about all histories.", "anchors": ["tmdsimpy/jax/nlforces/roughcontact/_asperity_functions.py:_tangential_asperity", "tmdsimpy/jax/nlforces/roughcontact/rough_contact.py:_local_force_history"]}
{"id": "C63", "title": "Residual without gradients", "statement": "With calc_grad=False the residual functions return the same residual as with gradients.", "quantifier": "all systems, elements and inputs", "why_tests_cant": "Ranges over every element type and input.", "anchors": ["tmdsimpy/vibration_system.py:VibrationSystem.total_aft", "tmdsimpy/vibration_system.py:VibrationSystem.hbm_res", "tmdsimpy/nlforces/nonlinear_force.py:HystereticForce.aft"]}
{"id": "C64", "title": "Line search keeps a full step onto a root", "statement": "When the full step lands on a root of the residual, the line search takes the full step.", "quantifier": "all residual functions, points and steps with nonzero directional residual, all line search settings", "why_tests_cant": "Ranges over all residual functions and settings.", "anchors": ["tmdsimpy/jax/solvers.py:NonlinearSolverOMP.line_search"]}
{"id": "C65", "title": "Post-processed local forces agree with the alternating frequency-time method", "statement": "local_harmonic_forces returns, for every nonlinear force of a system, local displacements and force coefficients that reproduce the harmonic force the element's aft adds to the residual.", "quantifier": "all systems, motions, harmonic lists and element types", "why_tests_cant": "Ranges over all element types, motions and settings; it repeats the transforms of aft in separate code.", "anchors": ["tmdsimpy/postprocess/harmonic.py:local_harmonic_forces", "tmdsimpy/jax/nlforces/elastic_dry_fric_2d.py:local_force_history"]}
{"id": "C66", "title": "EPMC reduced model: the constant-displacement point has the requested control amplitude", "statement": "The backbone point that constant_displacement returns moves its control point, in the first harmonic, with the requested control amplitude.", "quantifier": "all backbones, control points and amplitudes in the range of the backbone", "why_tests_cant": "Mode shape and modal amplitude are interpolated separately; whether their product is the requested amplitude is an algebraic question about every backbone.", "anchors": ["tmdsimpy/roms/epmc.py:constant_displacement", "tmdsimpy/postprocess/continuation.py:linear_interp"]}
{"id": "C67", "title": "Initial guess from the linear response", "statement": "The initial guess of predict_harmonic_solution solves, without further iterations, the chosen residual of the system without its nonlinear forces: harmonic balance at the given force, amplitude control, or amplitude and phase control; the VPRNM guess adds the linear response to the superharmonic of the nonlinear force.", "quantifier": "all systems with proportional damping, forces, frequencies off resonance, harmonic lists, control points, amplitudes and orders", "why_tests_cant": "Scaling, rotation to the control phase and block placement must fit residual functions written elsewhere, for every system and harmonic list.", "anchors": ["tmdsimpy/utils/harmonic.py:predict_harmonic_solution"]}
{"id": "C68", "title": "VPRNM reduced model of a superharmonic resonance", "statement": "constant_h1_displacement returns all steady states of the superharmonic mode whose peak is tied to the VPRNM point at the requested amplitude, combined with the fundamental motion in the phases of that point; a row at the VPRNM frequency has its motion in harmonics 1 and rhi at the control points and, with the force correction, its force; additional frequencies are interpolated, with nan for the superharmonic beyond the curve; the uncorrected forces keep the fundamental mode in steady state.", "quantifier": "all EPMC and VPRNM tables, sorted harmonic lists, superharmonics, control points, amplitudes and additional frequencies", "why_tests_cant": "Four tables with different harmonic lists are interpolated, rotated and summed block by block; a test fixes one beam and one superharmonic.", "anchors": ["tmdsimpy/roms/vprnm.py:constant_h1_displacement", "tmdsimpy/roms/vprnm.py:_extract_harmonic_amplitude"]}
{"id": "C69", "title": "Static load history and prestress workflow of a system", "statement": "After init_force_history and any sequence of system calls, static_res gives the forces of every element's law for the recorded loads and the friction in force; a frictionless static state stored with update_force_history has the same residual after reset_real_mu, with the Jacobian of stuck sliders; recording a load and evaluating again at the same displacement does not change the residual.", "quantifier": "all systems of instantaneous, Jenkins, Iwan, elastic dry friction and rough contact elements, all call sequences, displacements and loads", "why_tests_cant": "The state is spread over all elements of a list with different classes and call orders; a test fixes one structure and one order of calls.", "anchors": ["tmdsimpy/vibration_system.py:VibrationSystem.init_force_history", "tmdsimpy/vibration_system.py:VibrationSystem.update_force_history", "tmdsimpy/vibration_system.py:VibrationSystem.set_prestress_mu", "tmdsimpy/vibration_system.py:VibrationSystem.reset_real_mu", "tmdsimpy/vibration_system.py:VibrationSystem.set_aft_initialize", "tmdsimpy/vibration_system.py:VibrationSystem.static_res"]}
{"id": "C70", "title": "Vibrations of a system around a prestressed state", "statement": "A frictionless static state stored by the prestress workflow is a constant solution of the harmonic balance residual with friction; while all sliders stick and contacts stay closed, vibrations around it have the residual of the linear system with the stuck stiffness; static and harmonic evaluations of a constant displacement agree for every element; harmonic evaluations do not change the static loads.", "quantifier": "all systems of the modelled elements, call sequences, harmonic lists with harmonic 0, sample counts, displacements, vibrations and forces", "why_tests_cant": "Static and harmonic forces are separate code paths in every class with separate start values; a test compares one structure at one amplitude.", "anchors": ["tmdsimpy/vibration_system.py:VibrationSystem.hbm_res", "tmdsimpy/vibration_system.py:VibrationSystem.total_aft", "tmdsimpy/vibration_system.py:VibrationSystem.static_res", "tmdsimpy/vibration_system.py:VibrationSystem.set_aft_initialize", "tmdsimpy/nlforces/cubic_damping.py:CubicDamping.force"]}
{"id": "C71", "title": "Harmonic forces and residuals are exact Fourier integrals", "statement": "With more samples than (degree + 1) times the highest harmonic, the AFT forces of cubic, quintic and polynomial stiffness and of cubic damping are exactly the Fourier integrals of the force over the period, the harmonic balance residual is the Fourier integral of the equation of motion (Galerkin's method), and further samples change nothing; the bound is sharp.", "quantifier": "all elements, degrees of freedom, polynomial exponents, harmonic lists, sample counts above the bound, motions and frequencies", "why_tests_cant": "Aliasing depends on the harmonics, the degree and the sample count together; a test compares two sample counts at one motion.", "anchors": ["tmdsimpy/nlforces/nonlinear_force.py:InstantaneousForce.aft", "tmdsimpy/nlforces/cubic_stiffness.py:CubicForce", "tmdsimpy/nlforces/quintic_stiffness.py:QuinticForce", "tmdsimpy/nlforces/cubic_damping.py:CubicDamping", "tmdsimpy/nlforces/general_poly_stiffness.py:GenPolyForce.aft", "tmdsimpy/vibration_system.py:VibrationSystem.hbm_res"]}
{"id": "C72", "title": "Harmonic solutions can be shifted in time", "statement": "If a motion is delayed by a whole number of samples, every element returns its forces delayed by the same phase, also the friction elements, whose evaluation starts from rest at another point of the motion; elements with exact Fourier integrals do so for every phase; hence a solution of the harmonic balance residual rotated with rotate_subtract_phase solves the problem with the rotated force.", "quantifier": "all systems of sampled, Jenkins, JAX Jenkins, Iwan and elastic dry friction elements, harmonic lists with or without harmonic 0, sample counts, motions and phases", "why_tests_cant": "The start of the period enters through the sample grid, the start displacement of the sliders and the stopping rule; a test rotates one motion once.", "anchors": ["tmdsimpy/utils/harmonic.py:rotate_subtract_phase", "tmdsimpy/vibration_system.py:VibrationSystem.hbm_res", "tmdsimpy/nlforces/nonlinear_force.py:HystereticForce.aft", "tmdsimpy/nlforces/nonlinear_force.py:HystereticForce.local_force_history", "tmdsimpy/jax/nlforces/elastic_dry_fric_3d.py:ElasticDryFriction3D.aft"]}
{"id": "C73", "title": "Symmetric systems need odd harmonics only", "statement": "In a system whose elements have no preferred direction, a motion with odd harmonics gives no forces on even harmonics, and adding harmonic 0 and even harmonics to the list changes neither the forces nor the residual on the odd ones: a solution of the harmonic balance residual on a list of odd harmonics, extended by zeros, solves the residual on the larger list.", "quantifier": "all systems of cubic, quintic, odd polynomial, cubic damping, Iwan backbone, Jenkins, JAX Jenkins and Iwan elements, all lists of odd harmonics and extensions by even ones, sample counts and motions", "why_tests_cant": "Users drop even harmonics to save time; a test compares two lists for one motion, and the stopping rule of the friction elements breaks the claim for some motions only.", "anchors": ["tmdsimpy/vibration_system.py:VibrationSystem.hbm_res", "tmdsimpy/vibration_system.py:VibrationSystem.total_aft", "tmdsimpy/nlforces/nonlinear_force.py:InstantaneousForce.aft", "tmdsimpy/nlforces/nonlinear_force.py:HystereticForce.aft"]}
{"id": "C74", "title": "Energy balance of harmonic solutions", "statement": "At a solution of the harmonic balance residual the external forces feed in, on average over the period, exactly what the damping matrix and the nonlinear elements take; at a solution of the EPMC residual the modal damping coefficient is that power divided by the mean of v'Mv, so it is positive for dissipative systems. Sampled springs do no work, sampled dampers and steady friction elements take energy.", "quantifier": "all systems with symmetric matrices, harmonic lists, sample counts, solutions, external forces and frequencies; elements above their sample bounds", "why_tests_cant": "It relates a solution of the whole residual to a time integral that the code never computes; a test would check one converged solution numerically.", "anchors": ["tmdsimpy/vibration_system.py:VibrationSystem.hbm_res", "tmdsimpy/vibration_system.py:VibrationSystem.epmc_res", "tmdsimpy/nlforces/nonlinear_force.py:InstantaneousForce.aft", "tmdsimpy/nlforces/nonlinear_force.py:HystereticForce.aft", "tmdsimpy/nlforces/jenkins_element.py:JenkinsForce"]}
{"id": "C75", "title": "Other coordinates and reduced models", "statement": "If a system is written in other coordinates u = V q, with matrices V'AV, element matrices QV and V'T and forces V'f, then static, harmonic balance and EPMC residuals are V' times those of the original system, Jacobians V'JV, and every call sequence leaves the elements in the same state. Coordinates that describe every displacement (other numbering, all modes) have the same solutions; a reduced model keeps the solutions in its span.", "quantifier": "all matrices V, systems of all modelled elements, call sequences, displacements, harmonic lists, sample counts, frequencies and forces", "why_tests_cant": "Users write models in physical, modal or reduced coordinates and rely on the same results; a test compares one model in two forms at one point.", "anchors": ["tmdsimpy/vibration_system.py:VibrationSystem.static_res", "tmdsimpy/vibration_system.py:VibrationSystem.hbm_res", "tmdsimpy/vibration_system.py:VibrationSystem.epmc_res", "tmdsimpy/nlforces/nonlinear_force.py:InstantaneousForce.aft", "tmdsimpy/nlforces/nonlinear_force.py:HystereticForce.aft", "tmdsimpy/utils/harmonic.py:harmonic_stiffness"]}
{"id": "C76", "title": "Linear modes are the EPMC solutions of linear systems", "statement": "For a system without nonlinear forces, with symmetric stiffness, symmetric positive definite mass and damping al M + be K, the EPMC residual is zero exactly at a static equilibrium plus a vibration in a linear mode of that frequency with modal mass 1, damping coefficient al + be w^2, no other harmonics, and any amplitude. With nonlinear forces the residual at a linear mode is the harmonic content of those forces alone.", "quantifier": "all linear systems with proportional damping, harmonic lists that start with 1 or 0, 1, unknowns, external forces, sample counts and amplitudes", "why_tests_cant": "Users start the continuation at a linear mode and read the limit of the backbone as the linear frequency and damping; that no other solution exists cannot be found by sampling.", "anchors": ["tmdsimpy/vibration_system.py:VibrationSystem.epmc_res", "tmdsimpy/utils/harmonic.py:harmonic_stiffness"]}
{"id": "C77", "title": "Summary files report the solution", "statement": "The callbacks that print EPMC, amplitude controlled, and VPRNM results write a header once and then one row per solution, with frequency in Hz, the control forces and amplitude, the fraction of critical damping, and the amplitude of the requested harmonic of the requested derivative at the output point, each under its heading.", "quantifier": "all unknown vectors in the layout of the residual, harmonic lists, outputs, derivative orders, files and call sequences", "why_tests_cant": "The functions are documented as untested; the layout of the unknowns differs between residuals and rows hold no trace of a wrong index.", "anchors": ["tmdsimpy/utils/continuation.py:_calc_harmonic_resp", "tmdsimpy/utils/continuation.py:print_epmc_stats", "tmdsimpy/utils/continuation.py:print_hbm_amp_stats", "tmdsimpy/utils/continuation.py:print_hbm_amp_phase_stats", "tmdsimpy/utils/continuation.py:print_vprnm_stats", "tmdsimpy/utils/continuation.py:print_vprnm_amp_phase_stats"]}
{"id": "C78", "title": "Other units give the same results", "statement": "If lengths, forces and frequencies are expressed in other units and all matrices, element parameters, stored states, displacements and external forces are converted, then static, harmonic balance and EPMC residuals, Jacobians, element states after any sequence of calls and exceptions are the converted ones, and converted solutions are the solutions of the converted system.", "quantifier": "all positive conversion factors, systems of all modelled elements (rough contact with the TAN model), call sequences, displacements, harmonic lists, sample counts, frequencies and forces", "why_tests_cant": "Users choose m, mm, N, kN freely; a constant with a unit hidden in the code shows up only in some units and for some motions.", "anchors": ["tmdsimpy/vibration_system.py:VibrationSystem.static_res", "tmdsimpy/vibration_system.py:VibrationSystem.hbm_res", "tmdsimpy/vibration_system.py:VibrationSystem.epmc_res", "tmdsimpy/nlforces/nonlinear_force.py:HystereticForce.aft", "tmdsimpy/nlforces/cubic_damping.py:CubicDamping.force", "tmdsimpy/jax/nlforces/roughcontact/rough_contact.py:RoughContactFriction"]}
{"id": "C79", "title": "Harmonic balance and shooting find the same periodic motions", "statement": "A motion with finitely many harmonics that solves the equations of motion is a zero of hbm_res. shooting_res is zero exactly at the states from which a motion of the system starts that repeats after one period, and so at the initial state of every such motion that harmonic balance finds.", "quantifier": "all systems with invertible mass matrix, elements with Lipschitz laws (springs of any shape, unilateral springs, conservative Iwan elements), frequencies, forcings, harmonic lists, sample counts and motions; exact time integration", "why_tests_cant": "Tests compare both methods for a few parameters up to the truncation error; whether both solve the same equation of motion, and whether a zero residual means that a periodic motion exists for all time, is a statement about differential equations.", "anchors": ["tmdsimpy/vibration_system.py:VibrationSystem.hbm_res", "tmdsimpy/vibration_system.py:VibrationSystem.shooting_res", "tmdsimpy/vibration_system.py:_shooting_state_space", "tmdsimpy/nlforces/cubic_damping.py:CubicDamping.force"]}
{"id": "C80", "title": "Ring model of rough contact follows its traction law", "statement": "With tangent_model MIF every ring of every contact disc carries the traction that was stored at its radius plus the fitted Mindlin stiffness times the tangential step, limited by mu times the Hertz pressure, after any sequence of static calls and at every step of the harmonic loop; the tangential force is the trapezoidal integral over the discs. A disc moved far enough slides with a fixed share of mu times the normal force that tends to 1 with the number of radial points.", "quantifier": "all materials, gaps, weights, friction coefficients, numbers of radial points, call sequences, displacements, harmonic lists, sample counts and passes; rings further apart than 2^-104", "why_tests_cant": "Tests compare a few motions with reference values of the same fit; the radius of the disc changes at every step, so stored tractions are moved to new radii without end.", "anchors": ["tmdsimpy/jax/nlforces/roughcontact/_asperity_functions.py:_tangential_asperity_mif", "tmdsimpy/jax/nlforces/roughcontact/rough_contact.py:RoughContactFriction"]}
{"id": "C81", "title": "An analysis with subharmonics contains the original solutions", "statement": "If a motion is written on a period k times as long, with k times its harmonics, possibly further subharmonics, k times the samples and the frequency divided by k, then every element returns the same forces in time, without forces on the added harmonics, and the motion solves the harmonic balance equations of the longer period exactly if it solves the original ones.", "quantifier": "all k, harmonic lists, sample counts, systems of sampled and friction elements, frequencies, loads and motions whose friction evaluation does not stop after the first pass", "why_tests_cant": "Period doubling studies compare both lists; friction elements remember the past and pass over the motion k times as often, so agreement for a few motions says nothing about others.", "anchors": ["tmdsimpy/vibration_system.py:VibrationSystem.hbm_res", "tmdsimpy/nlforces/nonlinear_force.py:InstantaneousForce.aft", "tmdsimpy/nlforces/nonlinear_force.py:HystereticForce.aft", "tmdsimpy/jax/nlforces/elastic_dry_fric_2d.py:ElasticDryFriction2D.aft", "tmdsimpy/utils/harmonic.py:harmonic_stiffness"]}
{"id": "C82", "title": "Static states are unique", "statement": "If the stiffness matrix is positive definite, static_res has at most one zero for a load and a history, the residual at any displacement bounds the distance to it, and the Jacobian is never singular. This holds for springs, sliders in any state and frictionless contact; it fails with friction at a contact and when an asperity reaches its yield limit.", "quantifier": "all systems of cubic, quintic, unilateral and Iwan springs, Jenkins, Iwan, elastic dry friction and rough contact elements, call sequences, displacements, loads and stiffness matrices", "why_tests_cant": "A solver returns one solution and does not show that there is another; a test cannot search all displacements.", "anchors": ["tmdsimpy/vibration_system.py:VibrationSystem.static_res", "tmdsimpy/vibration_system.py:VibrationSystem.update_force_history", "tmdsimpy/vibration_system.py:VibrationSystem.set_prestress_mu", "tmdsimpy/nlforces/jenkins_element.py:JenkinsForce.force", "tmdsimpy/jax/nlforces/elastic_dry_fric_2d.py:ElasticDryFriction2D.force", "tmdsimpy/jax/nlforces/roughcontact/rough_contact.py:RoughContactFriction.force"]}
{"id": "C83", "title": "The Jacobian of rough contact is the derivative of its forces", "statement": "RoughContactFriction.force and RoughContactFriction.aft return finite Jacobians that are the derivatives of the returned forces, in any state of the history, wherever no asperity is at the beginning or end of its contact, at the yield limit or exactly at its friction limit (for aft: at any sample of the cycle, with a single largest sample of the normal motion).", "quantifier": "all materials, surfaces, call sequences, displacements, harmonic lists, numbers of samples and passes, and projections onto and from the local directions", "why_tests_cant": "The derivative comes from automatic differentiation through branches and ties; a test compares it with finite differences at a few displacements.", "anchors": ["tmdsimpy/jax/nlforces/roughcontact/rough_contact.py:RoughContactFriction.force", "tmdsimpy/jax/nlforces/roughcontact/rough_contact.py:RoughContactFriction.aft", "tmdsimpy/jax/nlforces/roughcontact/rough_contact.py:RoughContactFriction.set_prestress_mu", "tmdsimpy/jax/nlforces/roughcontact/_asperity_functions.py:_tangential_asperity", "tmdsimpy/jax/nlforces/roughcontact/_asperity_functions.py:_normal_asperity_general"]}
{"id": "C84", "title": "The order of the nonlinear elements does not matter", "statement": "The order in which add_nl_force receives the elements changes no residual or derivative of any analysis (static, harmonic balance, EPMC, VPRNM, shooting), and not the state any element ends in after any sequence of history and friction calls.", "quantifier": "all systems, all permutations of their elements, all unknowns, harmonic lists and grids, and all sequences of calls", "why_tests_cant": "a test fixes a few orders of a few elements; the claim covers every permutation of every list of elements and any later calls", "anchors": ["tmdsimpy/vibration_system.py:VibrationSystem.add_nl_force", "tmdsimpy/vibration_system.py:VibrationSystem.total_aft", "tmdsimpy/vibration_system.py:VibrationSystem.static_res", "tmdsimpy/vibration_system.py:VibrationSystem.update_force_history"]}
{"id": "C85", "title": "Fewer harmonics leave out exactly the other equations", "statement": "A motion keeps its forces when harmonics are added to the list with zero coefficients: every element returns the same coefficients on the old harmonics, and hbm_res returns the same residual there. On the added harmonics the residual is the force the elements put there less the load, so a solution for the shorter list solves the longer one exactly if the elements balance the load on the added harmonics.", "quantifier": "all systems of sampled and friction elements, harmonic lists h1 inside h2, even sample counts above the limit of h2, motions, loads and frequencies", "why_tests_cant": "Convergence studies compare a few lists for a few motions; friction elements keep a state over the samples and start it at a coefficient whose place depends on the list.", "anchors": ["tmdsimpy/vibration_system.py:VibrationSystem.hbm_res", "tmdsimpy/vibration_system.py:VibrationSystem.total_aft", "tmdsimpy/nlforces/nonlinear_force.py:InstantaneousForce.aft", "tmdsimpy/nlforces/nonlinear_force.py:HystereticForce.aft", "tmdsimpy/jax/nlforces/elastic_dry_fric_2d.py:ElasticDryFriction2D.aft", "tmdsimpy/utils/harmonic.py:harmonic_stiffness"]}
{"id": "C86", "title": "Undamped systems with springs follow from an energy", "statement": "With symmetric matrices and elements that are springs (cubic, quintic, unilateral, Iwan backbone, polynomial with a potential), static_res returns the gradient of the potential energy, and hbm_res without damping returns the gradient of the mean action of the sampled motion, up to the mean square of each component. So the zeros of the residuals are exactly the stationary points of these scalars.", "quantifier": "all systems with symmetric matrices, all lists of springs, displacements, loads, harmonic lists, even sample counts above 2 max(h) + 1, and nonzero frequencies", "why_tests_cant": "A test compares residuals with a few hand computed values; that one scalar generates all rows for all motions and any mix of springs needs a proof over arbitrary curves.", "anchors": ["tmdsimpy/vibration_system.py:VibrationSystem.static_res", "tmdsimpy/vibration_system.py:VibrationSystem.hbm_res", "tmdsimpy/vibration_system.py:VibrationSystem.total_aft", "tmdsimpy/nlforces/cubic_stiffness.py:CubicForce", "tmdsimpy/nlforces/quintic_stiffness.py:QuinticForce", "tmdsimpy/nlforces/unilateral_spring.py:UnilateralSpring", "tmdsimpy/nlforces/iwan_bb_conserve.py:ConservativeIwanBB", "tmdsimpy/nlforces/general_poly_stiffness.py:GenPolyForce", "tmdsimpy/utils/harmonic.py:harmonic_stiffness"]}
{"id": "C87", "title": "Tangent matrices of spring systems are symmetric", "statement": "With symmetric mass and stiffness matrices and cubic, quintic, unilateral and Iwan backbone springs that act on their own displacements, the Jacobian of static_res is symmetric, and without damping the Jacobian of hbm_res by the harmonic coefficients is symmetric when each row is weighted by the mean square of its component. This holds at every point, also where a spring has a kink.", "quantifier": "all systems with such matrices and springs, displacements, loads, harmonic lists, even sample counts above 2 max(h) + 1 and nonzero frequencies", "why_tests_cant": "A test compares a few entries of a few matrices; symmetric solvers and stability arguments rely on every entry at every point, including kinks that finite differences cannot reach.", "anchors": ["tmdsimpy/vibration_system.py:VibrationSystem.static_res", "tmdsimpy/vibration_system.py:VibrationSystem.hbm_res", "tmdsimpy/vibration_system.py:VibrationSystem.total_aft", "tmdsimpy/nlforces/nonlinear_force.py:InstantaneousForce.aft", "tmdsimpy/utils/harmonic.py:harmonic_stiffness"]}
{"id": "C88", "title": "Undamped spring systems do not know the direction of time", "statement": "Without damping and with springs only, reversing a motion and its load in time (changing the sign of the sine coefficients) reverses the residual of hbm_res. So a motion of cosines under a load of cosines leaves nothing in the sine equations.", "quantifier": "all systems without damping, lists of springs, motions, loads, harmonic lists, even sample counts above 2 max(h) + 1 and nonzero frequencies", "why_tests_cant": "Tests look at a few motions; the claim is about all motions at once, with forces known only at the samples.", "anchors": ["tmdsimpy/vibration_system.py:VibrationSystem.static_res", "tmdsimpy/vibration_system.py:VibrationSystem.hbm_res", "tmdsimpy/vibration_system.py:VibrationSystem.total_aft", "tmdsimpy/nlforces/nonlinear_force.py:InstantaneousForce.aft", "tmdsimpy/utils/harmonic.py:harmonic_stiffness"]}
{"id": "C89", "title": "Springs do not damp nonlinear modes", "statement": "At every solution of epmc_res for a system with symmetric matrices, damping matrix alpha M and polynomial springs sampled often enough for their degree, the damping coefficient of the mode is exactly alpha, at every amplitude. An undamped system has undamped nonlinear modes.", "quantifier": "all systems of that form, harmonic lists that contain 1, even sample counts above the limits, and all zeros of the residual with nonzero frequency", "why_tests_cant": "A test follows one backbone of one system at a few amplitudes within a tolerance; the claim is exact for every solution and every mix of springs.", "anchors": ["tmdsimpy/vibration_system.py:VibrationSystem.epmc_res", "tmdsimpy/vibration_system.py:VibrationSystem.total_aft", "tmdsimpy/nlforces/cubic_stiffness.py:CubicForce", "tmdsimpy/nlforces/quintic_stiffness.py:QuinticForce", "tmdsimpy/nlforces/general_poly_stiffness.py:GenPolyForce"]}
{"id": "C90", "title": "Shooting integrates motions that keep the energy balance", "statement": "Along every solution of the differential equation that shooting_res integrates, for a system with symmetric matrices and springs, the sum of kinetic and potential energy changes by the power of the load less the power of the damping matrix. Without load it is constant in undamped systems and does not grow in damped ones.", "quantifier": "all systems with symmetric matrices and springs, loads, frequencies, and all solutions of the differential equation over all times", "why_tests_cant": "A test integrates a few motions numerically within a tolerance; the claim is about every exact solution, whatever integrator is used.", "anchors": ["tmdsimpy/vibration_system.py:_shooting_state_space", "tmdsimpy/vibration_system.py:VibrationSystem.shooting_res"]}
{"id": "C91", "title": "Static states are the states of smallest potential energy", "statement": "With a symmetric stiffness matrix without negative energies and springs whose energies are convex (cubic and quintic springs with stiffness at least zero, walls, Iwan backbones), the residual returned by static_res is zero exactly at the displacements where the potential energy of stiffness, springs and applied forces is smallest. With a stiffness of at least m, the energy at any displacements exceeds the smallest one by at most the squared length of the residual divided by 2 m, so the residual tells how good an unconverged static solution is, and the energy grows at least quadratically away from a static state.", "quantifier": "all numbers of degrees of freedom, stiffness matrices, lists of springs, applied forces and displacements", "why_tests_cant": "A test compares the residual at a few displacements with reference values. That a zero residual means a global minimum of the energy over all displacements cannot be sampled, and a wrong sign or factor in one element can leave every tested residual plausible.", "anchors": ["tmdsimpy/vibration_system.py:VibrationSystem.static_res", "tmdsimpy/nlforces/cubic_stiffness.py:CubicForce", "tmdsimpy/nlforces/quintic_stiffness.py:QuinticForce", "tmdsimpy/nlforces/unilateral_spring.py:UnilateralSpring", "tmdsimpy/nlforces/iwan_bb_conserve.py:ConservativeIwanBB"]}
{"id": "C92", "title": "Unloaded motions stay near static states", "statement": "For systems with positive definite mass and stiffness, damping that does not feed energy, springs with convex energies and no load, every exact solution of the equations that shooting integrates keeps its distance from a static state of static_res, and its speed, below a bound given by its energy above the static state. A motion that starts at rest in a static state stays there, so static_res and shooting agree on what equilibrium is.", "quantifier": "all systems with any number of degrees of freedom, all springs, static states, solutions and pairs of times", "why_tests_cant": "Two functions of the code must agree on the equilibrium for all systems and all times. A test integrates a few motions for a few periods and cannot separate integration errors from a wrong equation of motion.", "anchors": ["tmdsimpy/vibration_system.py:_shooting_state_space", "tmdsimpy/vibration_system.py:VibrationSystem.shooting_res", "tmdsimpy/vibration_system.py:VibrationSystem.static_res"]}
