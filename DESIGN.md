# Formal model of tmdsimpy in Rocq (Coq 8.16.1)

Source of truth: `/repo` (tmd-lab/tmdsimpy at the pinned commit), read as text.
Properties: `properties.jsonl`. Theorem index: `MANIFEST.json`.
Wrong-program experiments: `seeded/LOG.jsonl`.

## Layout (`rocq/theories`)

| directory | content |
|---|---|
| `Lib/`   | finite sums, vectors, matrices, calculus helpers, Python results. No modelling. |
| `Spec/`  | small specifications: what the English properties mean (trigonometric series, sliders, Hertz contact, Jacobians, ...). |
| `Model/` | shallow executable model of the Python functions. No proofs. Every definition cites file and lines. |
| `Proofs/`| lemmas. |
| `Props/` | the property theorems, each closed by `exact`, with `Print Assumptions`, plus `Example`s that meet the hypotheses. |

Most `Spec` files do not mention the model. The exceptions need its types to speak about calls and results:
`Spec/System`, `Spec/Continuation`, `Spec/Solver`, `Spec/JenkinsCalls`, `Spec/IwanCalls`, `Spec/EldryCalls`,
`Spec/RoughCalls`, `Spec/LocalResults`.

## Conventions

* **Numbers.** float64 is modelled by the real numbers `R` of the standard library. Rounding and overflow are outside the
  model. nan and inf are explicit values (`None`) in the JAX solver, the rough contact element, the interpolation
  functions and the EPMC reduced model, where the code relies on them.
* **Vectors and matrices** are functions `nat -> R`, `nat -> nat -> R` with explicit dimensions where only values matter,
  and `list`s where lengths, slices or histories matter.
* **Shapes.** Unless a comment says otherwise, arrays have their documented shapes; numpy shape errors are not modelled.
* **Exceptions** (failed `assert`, `IndexError`, `NameError`, ...) are values (`Err ...` or `None`). The state an object is left
  in by an exception is modelled for the JAX solver's configuration, the Jenkins and Iwan call sequences and the friction
  switching of systems, and nowhere else.
* **Mutable objects** are records; methods return the new record. Aliasing (mutable default arguments, numpy views, shared
  lists) is modelled explicitly where the code has it.
* **External numerics** are arguments of the model; what is assumed about them is a visible hypothesis of the theorem.
  These are: `np.linalg.solve/inv/eigvals`, `scipy.linalg.eigh` and LU solves, `scipy.optimize.root`, `solve_ivp`,
  the nonlinear solver and residual function of a continuation or Newton run. Callbacks only observe.
* **Derivatives** are stated with the standard library's `derivable_pt_lim`. "J is the Jacobian of F at X" means:
  along every curve through X that is differentiable coordinate-wise, each F_i is differentiable with derivative
  (J v)_i. This includes all partial and directional derivatives, and composes.
* A claim that is false of the faithful model is recorded as `..._refuted` with a witness, next to the `..._partial`
  theorem that states where it does hold.

## Per property: what is modelled and how it is proved

| id | model | proof |
|---|---|---|
| C01 | `Nhc` on lists, assert as error | induction on the list |
| C02 | `time_series_deriv` through scatter, D1 power, conjugate spectrum, ifft sum | spectrum sum collapsed to the trigonometric polynomial; derivative by iterating the rotation D1 |
| C03 | `get_fourier_coeff` as fft sum | discrete orthogonality of sampled sines and cosines |
| C04 | same | parity of Nt; `_refuted` for odd Nt |
| C05, C06 | `harmonic_stiffness` entry by entry, all flags | block structure + derivatives of the series |
| C07 | `rotate_subtract_phase` | angle addition |
| C08 | `shift_pm_pi` with Python's precedence | `_refuted` + range theorem |
| C09 | list slices | induction / slicing lemmas, `_refuted` for array delta with many extras |
| C10 | list function | pointwise; `_refuted` for exact zeros |
| C11-C14 | element laws | real analysis, `Rpower` for the Iwan backbone |
| C15 | `InstantaneousForce.aft`, `GenPolyForce.aft` | derivative along curves through DFT sums |
| C16, C17 | Jenkins and Iwan elements, every sequence of method calls | refinement to the slider law by induction on call lists; energy inequality |
| C18 | repeated passes over a period | composition of clamp maps is a clamp, hence idempotent |
| C19 | the `while` loop incl. the numpy view aliasing | `_refuted` (stop after one pass) + `_partial` |
| C20, C21 | vectorised elements: critical points and fill-in | monotone segments: clamp of sum = iterated clamp; Masing rule |
| C22 | derivative recursions, `aft` of hysteretic elements, forward mode through `where/min/max` | local constancy of the stick/slip pattern; chain rule through the DFT |
| C23 | slider tables of the Iwan element | geometric sums, integral of the density |
| C24, C25 | element state machines and whole systems | induction over call sequences; `_refuted` where state is shared or a call raises |
| C26-C28 | JAX Jenkins and elastic dry friction, forward-mode duals | clamp lemmas with varying limits; equality with the reference element |
| C29 | JAX vectorised Jenkins: `top_k`, sort, interpolation index | reversals of a trigonometric polynomial are bounded by 2 max h (Rolle counting); `_refuted` for plateaus |
| C30-C34, C64 | `NonlinearSolverOMP` as a loop over an arbitrary residual oracle | loop invariants; secant equation of the two-loop recursion by induction; bisection invariants |
| C35, C36 | `_conditioned_fun`, `eigs` with its shared default list | chain rule; induction over calls; `_refuted` |
| C37-C43 | `Continuation` as a loop over an arbitrary solver oracle | loop invariants, calculus |
| C44 | file system state machine with crash points | induction on calls; `_refuted` |
| C45, C46 | interpolation tables | search over increasing tables; derivative of cubic pieces |
| C47-C56 | `VibrationSystem` methods over arbitrary element lists | linear algebra, derivative along curves |
| C57, C58 | shooting dynamics and residual, Floquet multipliers | one-force case; ODE solver as an oracle with an exactness hypothesis |
| C67 | `predict_harmonic_solution` on the model of `linear_frf` | superposition of linear responses; scaling and rotation of the response; the theorems on zeros of the residuals, read from solution to residual |
| C59, C60, C66 | EPMC reduced models over whole backbones | real and complex algebra with square roots; inversion |
| C68 | `constant_h1_displacement` on the models of `linear_interp` and the EPMC `constant_force` and `constant_displacement` | block algebra of harmonic components under rotation; interpolation lemmas; the steady states of C59 |
| C69 | the history methods and `static_res` of `VibrationSystem` over a list of elements with their full state | invariant: each element stores what its law remembers of the recorded loads (induction over the calls and the list); law by law for the workflow |
| C70 | `total_aft` and the residual of `hbm_res` over the same element list, after the calls of C69 | exact AFT values of each element on a motion that sticks or rests (finite Fourier sums), summed over the list; rows of the harmonic stiffness |
| C71 | the AFT of the four elements with polynomial forces and `hbm_res`, already modelled | trigonometric polynomials of bounded degree as an inductive class closed under products and derivatives; sample means equal integrals below the sample count; integrals by antiderivatives |
| C72 | `element_aft` and `hbm_res` over the element list, `rotate_subtract_phase`, already modelled | the reproducing kernel of the harmonic list turns a shift of samples into a shift of the argument; composition of slider limits over one period is again a limit, so the steady state does not depend on the start of the period |
| C73 | `element_aft` and `hbm_res` over the element list, already modelled | the force of the second half period is opposite to the first (up to a constant for sliders with another start), so its Fourier coefficients on even harmonics vanish; the stiffness part by the equation of motion in time |
| C74 | `hbm_res` over the element list, `epmc_res`, `element_aft`, already modelled | the residual is multiplied by the velocity coefficients and Parseval's identity turns it into mean powers; symmetric matrices drop out; exact forces (C71) take the power of the force in time, and conservative ones are derivatives of a periodic function; friction by discrete work: for one harmonic the velocity is a multiple of the central difference of the samples |
| C75 | `static_res`, `hbm_res`, `epmc_res`, the history methods and all element methods, already modelled | the local displacements are equal functions, so the local parts of both evaluations are equal step by step; T and Q then give V'F and V'JV; the harmonic stiffness by induction over its blocks; call sequences by induction |
| C76 | `epmc_res`, `harmonic_stiffness`, already modelled | rows of each harmonic; the quadratic forms of the two rows give energy and damping balance, hence the modes, the damping coefficient and zero higher harmonics; a two degree-of-freedom case |
| C77 | the `print_*` callbacks and `_calc_harmonic_resp` (`Model/SummaryFiles.v`): files as lists of lines, lines as lists of cells | slices give the blocks of the harmonic, `amplitude_iff` the amplitude of its derivative; induction over the calls; two `_refuted` cases |
| C78 | all elements and residuals, already modelled; the conversion of parameters and states in `Spec/Units.v` | every operation is homogeneous: Forall2 over the elements, relations between runs in old and new units; the one absolute constant (1e-10) as hypothesis `same_passes` and as `_refuted` witness |
| C79 | `hbm_res`, `shooting_res` and the elements, already modelled; equations of motion, force laws and exact integration in `Spec/Periodic.v` | Fourier coefficients of the equation of motion; Gronwall estimate for uniqueness; periodic extension of the trajectory is differentiable; energy argument for the `_refuted` witness |
| C80 | `mif_traction`, `finterp`, `kt_tilde`, `mif_force` and the histories that store tractions and radii; rings, hat functions and the cycle recursion in `Spec/RoughMif.v` | interpolation of jnp.interp equals a sum of hat functions on evenly spaced rings; invariant over calls and loop steps; exact error of the trapezoidal rule for the sliding share |
| C81 | `element_aft` and `hbm_res` over the element list, already modelled; `repeats` and `subharmonic_list` in `Spec/Subharmonic.v` | samples repeat k times, so coefficients that are no multiple of k vanish (a rotation argument) and the others agree; sliders are periodic after the first short pass; the stiffness part by the equation of motion in time |
| C82 | `sys_static_res` over the element list and `sys_run`, already modelled; `stiffness_at_least`, `aligned`, `resisting`, `no_yielding` in `Spec/StaticStates.v` | every such element does no negative work between two displacements, so the difference of residuals times the difference of displacements is at least m times the squared distance; the Cauchy-Schwarz inequality gives the bound. Counterexamples: a contact with mu = 7/2 on two coupled degrees of freedom; for rough contact the intermediate value theorem between zero and the yield limit |
| C83 | `rough_force`, `force_jacobian` over numbers that carry tangents (`Model/JaxFloat.v`), already modelled; `smooth_normal`, `smooth_friction`, `smooth_peak`, `smooth_cycle`, `smooth_slip`, `single_largest` in `Spec/RoughTangent.v` | along any differentiable curve of displacements each operation keeps the invariant that the tangent is the derivative of the value near the point (`Proofs/TracksP.v`); each regime of the normal law is open, and the clamp of the friction law selects one side near the point. For the cycle the same invariant is carried through the peak over the samples, the seeded Fourier synthesis, the scan over every pass by induction on the steps, and the Fourier projection (`Proofs/RoughCycleTangentP.v`, `Proofs/RoughAftJacobianP.v`). Counterexample by computing the ties of jnp.minimum and jnp.maximum |
| C84 | `static_res`, `total_aft`, the residuals built on them, `sys_run`, `sys_static_res`, `sys_hbm_res`, already modelled; `reordered`, `same_outcome` in `Spec/Order.v` | induction on the permutation over loops that add the contributions of their elements, then through every residual; elementwise maps for the calls; `_refuted` for shooting (only the last force enters) and after an exception in the middle of a loop. Missing: those two cases |
| C85 | `sys_hbm_res`, `element_aft`, already modelled; `agrees_on`, `zero_beyond`, `same_start` in `Spec/Truncation.v` | the zero-padded motion is the same function of time, so samples, slider starts and laws agree; Fourier coefficients of the same samples agree component by component; the linear part acts on each harmonic alone. `_refuted` for a Jenkins element that stops after the first pass, with the lists [1; 3] and [0; 1; 3]. Missing: rough contact |
| C86 | `static_res`, `hbm_res`, `harmonic_stiffness`, the spring elements, already modelled; `spring`, `springs`, `potential_energy`, `mean_action`, `share` in `Spec/Potential.v` | the derivative of the energy along any differentiable curve; the linear part row by row from uniqueness of Fourier coefficients; sample means of products of series; the Iwan energy as a Riemann integral of the backbone |
| C87 | as C86; `separate_springs`, `share` in `Spec/Potential.v` | entries of T diag Q with T the transpose of Q; entries of the sampled Jacobian as means of products of two basis functions; invariant of the loops over the elements |
| C88 | as C86; `reversed`, `sine_row` in `Spec/Reversal.v` | rows of the residual from C86; sums over the samples of a periodic function in the opposite order |
| C89 | `epmc_res`, the polynomial springs, already modelled; `sampled_spring` in `Spec/Potential.v` | energy balance of C74 with zero power of every spring, and the power of alpha M as a multiple of the power of M |
| C90 | `shooting_state_space`, already modelled; `trajectory`, `total_energy`, `load_power` in `Spec/Trajectory.v` | derivative of the energy along the curve from the gradients of C86 and the equations of motion of C57, then the mean value theorem; `C90_last` reduces several elements to the last one; `_refuted` for two springs (F3). Missing: several springs |
| C91 | `static_res` and the springs, already modelled; `convex`, `minimises`, `hardening` in `Spec/Convex.v` | convexity of primitives of rising forces, the slope of the energy along the segment between two states from the gradient of C86 |
| C92 | `shooting_state_space`, `static_res`, already modelled; vocabulary of C90 and C91 | the energy of C90 does not grow and C91 bounds the distance by it; `_refuted` for two springs (F3). Missing: several springs |
| C61, C62 | rough contact: asperity functions, static histories, harmonic loop, both tangential models | refinement to a memory of maxima and to a Mindlin slider; monotone iteration for the eventual steady state; `_refuted` for two passes |
| C63 | `calc_grad = False` branches | equality of values |
| C65 | `local_harmonic_forces` over all elements | both routes equal the same local histories |

Every property in `properties.jsonl` is expressed; none is `not_applicable`. What is missing from a partial one is in its
MANIFEST note and in the comment above the `_partial` theorem.

## Claims of the code's documentation found false (each is a `_refuted` theorem unless marked "note")

* `shift_pm_pi` changes angles by something else than multiples of 2 pi (C08). Odd sample counts lose a sample (C04).
  Array conditioning raises with many extra unknowns (C09). A zero crossing through an exact zero is missed (C10).
* Jenkins `instant_force_harmonic(update_prev=False)` overwrites stored derivatives (C16); a harmonic evaluation overwrites
  the static history (C25); the hysteretic loop may stop after the transient pass (C19), and then the vectorised and the
  sequential element differ (C20, C21). The vectorised stopping tests look at different points (note).
* Iwan growth ratios below 1 do not fill the slider interval (C23); `set_prestress_mu` raises for Iwan elements, leaving a
  system half switched (C24). The Iwan discretisation with -1 < chi <= 0 underestimates the stiffness (note).
* Elastic dry friction `force` ignores the stored friction force (C27); its aft Jacobian is wrong for an open contact at
  tangential rest (C22). JAX Jenkins raises for the harmonic list [0] (C28). JAX VectorJenkins drops reversals when samples
  repeat (C29).
* `_check_convg` swaps xtol_rel and etol_rel (C30); tolerances are tested before the last step (C31); the configuration is
  not restored after an exception and max_steps = 0 raises (C32); the line search brackets nothing when the initial
  directional residual is zero (C33) and with same_sign never takes a full step onto a root (C64).
* Vector RPtoC scales columns instead of rows (C35). The default list of `eigs` is shared between calls (C36).
* Continuation: silent runs keep unconverged points (C40); a run changes verbose, RPtoC, CtoP and the caller's FracLamList
  (C43). Saved histories are overwritten without the .npz suffix and lost by a kill (C44).
* `set_new_C` (C47), `linear_frf_base` without the inertia coupling and, with several base degrees of freedom, with one base degree of freedom per frequency (C55), shooting with only the last force (C57),
  `calc_grad = False` with hysteretic elements (C63).
* Post-processing uses another tolerance than aft and raises for some elements (C65).
* `constant_displacement` interpolates shape and amplitude separately (C66).
* A JAX `JenkinsForce` has type 1 but no `init_history` and no `update_hist`: `init_force_history` raises AttributeError and
  `update_force_history` TypeError, and later elements keep their old history (C69_init_refuted).  `set_aft_initialize` has no effect on
  Jenkins and Iwan elements (C69_aft_start_refuted).
* `static_res` passes displacements to `CubicDamping.force`, which takes velocities: a damper resists a static displacement
  (C70_damper_refuted).  A static state with friction is not a constant solution of `hbm_res`, and `hbm_res` overwrites the static
  history of Jenkins and Iwan elements (C70_friction_refuted, C70_static_kept_refuted).
* The early stop of the friction elements makes their forces depend on where the period starts: a Jenkins element whose first pass ends
  without force returns the first pass, and the delayed motion gives forces that are not the delayed forces (C72_early_stop_refuted).
* For the same reason a Jenkins element can return a mean force on a symmetric motion (C73_early_stop_refuted), and other forces when the same motion is analysed on a longer period (C81_early_stop_refuted).
* A load can have several static states: with a large friction coefficient at a contact (C82_friction_refuted), and with rough contact at the yield limit of an asperity, where the force drops to zero (C82_yield_refuted).
* After set_prestress_mu the tangential forces of rough contact are zero, but at the stored tangential position jnp.minimum and jnp.maximum meet ties, and the Jacobian contains a quarter of the tangential contact stiffness (C83_frictionless_refuted).
* A Jenkins element in its steady state can feed energy into the system when the motion has several harmonics and few samples per period, although the number of samples is enough for the harmonics (C74_friction_refuted: 8 samples of 3/2 sin(tau) - 3/2 cos(3 tau)).
* `_calc_harmonic_resp` for harmonic 0 mixes the mean value with the cosine of the next harmonic; `print_vprnm_amp_phase_stats` writes a label line with two blanks in front of four columns, so the labels stand above the wrong columns (C77).
* `HystereticForce.aft` compares a force with the number 1e-10, so friction results depend on the unit of force: a motion whose first period ends with a small force is evaluated once in one unit and twice in another, with forces that differ by a factor of two in the example. `CubicDamping.force`, used by `static_res`, returns c u^3 with a damping coefficient and a displacement (C78).
* `_shooting_state_space` passes displacements to every element. `CubicDamping.force` expects velocities, so shooting integrates a cubic spring where harmonic balance has a cubic damper, and accepts states from which no periodic motion starts (C79).
* With `tangent_model='MIF'` and n radial points, full sliding reaches a share between 1 - 5/(4(n-1)) and 1 of mu times the normal force, because the trapezoidal rule cuts the Hertz pressure. With two points the share is zero: the contact has no friction (C80).
* `constant_h1_displacement` (C68, notes): rhi missing from h_vprnm silently reads another harmonic; rhi in h_fund adds a second
  contribution to harmonic rhi; an amplitude outside the VPRNM or superharmonic table ends in a ValueError of argmin.
* Rough contact: a slightly yielded asperity carries force out of contact, and loading exactly to the yield limit gives no
  force (C61); no number of passes over a period is always enough (C62).

## Trusted base

* Coq's kernel (8.16.1) and its standard library. No plugins beyond those loaded by the standard tactics; no axioms, no
  `Admitted`, no functors or module types, no disabled checks.
* The reading of the Python code recorded in `Model/`: numpy semantics of slicing, broadcasting and views as described in
  the comments. In particular:
  * `np.fft.fft/ifft` by their defining finite sums; `np.interp`, `CubicHermiteSpline` by their defining formulas;
    numpy powers of positive bases by `Rpower`; `arctan2` by its documented cases (no signed zeros).
  * JAX forward mode by its rules per primitive: linear operations, products, `where` (tangent of the selected branch;
    a non-finite tangent of the other branch is not mixed in), `minimum/maximum` (mean of the tangents at ties),
    `max` of an array (mean over the entries attaining it), `sqrt/power` with non-finite tangents at 0 as `None`;
    `lax.top_k` order, `jnp.sort` and `jnp.interp` as documented.
* The axioms `Print Assumptions` lists. All are from the standard library's real numbers and classical logic:

  * A1 `ClassicalDedekindReals.sig_forall_dec`
  * A2 `ClassicalDedekindReals.sig_not_dec`
  * A3 `FunctionalExtensionality.functional_extensionality_dep`
  * A4 `Classical_Prop.classic`

| axioms | theorems |
|---|---|
| none (closed) | `C36_eigs_default_partial`, `C36_eigs_explicit`, `C01_component_count`, `C65_eldry_scalar_start_refuted`, `C44_history_partial`, `C44_append_partial`, `C53_full_coefficients` |
| A1 | `C36_eigs_default_refuted`, `C24_system_reset`, `C24_system_prestress_partial`, `C44_history_refuted`, `C44_kill_refuted`, `C47_damping_partial` |
| A1, A2, A3, A4 | `C91_minimum`, `C91_gap`, `C91_hardening`, `C75_static`, `C75_history`, `C75_harmonic`, `C75_jacobian`, `C75_nonlinear_mode`, `C75_solutions`, `C75_reduced`, `C74_forced`, `C74_nonlinear_mode`, `C74_elements`, `C74_friction_partial`, `C74_friction_refuted`, `C54_frequencies`, `C55_frequencies_partial`, `C55_several_refuted`, `C55_several_partial`, `C71_unique`, `C71_sample_count`, `C08_wrapping_refuted`, `C12_iwan_backbone`, `C14_iwan_backbone`, `C14_iwan_force`, `C15_aft_iwan_backbone`, `C23_cells`, `C23_density_integral`, `C23_uniform_exact`, `C23_stiffness_strength_bounds`, `C23_shrinking_refuted`, `C23_limits`, `C23_elastic_and_sliding`, `C21_vector_iwan_refuted`, `C76_modes`, `C76_shape`, `C76_nonlinear`, `C89_mode_damping`, `C84_resonance_partial`, `C84_history_partial`, `C84_exception_refuted`, `C79_shooting_partial`, `C79_unique_motion`, `C79_agree_partial`, `C79_elements`, `C79_damper_refuted`, `C86_static`, `C86_harmonic`, `C86_iwan`, `C67_hbm`, `C67_amp`, `C67_amp_phase`, `C67_vprnm`, `C88_reversal`, `C88_cosines`, `C59_constant_force`, `C59_inputs`, `C59_linear_order`, `C60_recovers_force`, `C60_force`, `C60_inverse`, `C66_control_amplitude_partial`, `C66_control_amplitude_refuted`, `C72_elements_partial`, `C72_no_memory`, `C72_any_phase`, `C72_solution_partial`, `C72_early_stop_refuted`, `C80_static_law`, `C80_aft_law`, `C80_sliding_refuted`, `C61_force_law`, `C61_nonnegative`, `C61_memory`, `C61_unloading_start`, `C61_elastic`, `C61_out_of_contact_refuted`, `C61_out_of_contact_partial`, `C61_yield_limit_refuted`, `C62_friction_law`, `C62_static_limit`, `C62_aft`, `C62_start`, `C62_cycle`, `C62_two_passes_refuted`, `C62_two_passes_partial`, `C83_frictionless_refuted`, `C83_static_partial`, `C83_aft_partial`, `C92_near_partial`, `C92_rest_partial`, `C92_two_springs_refuted`, `C82_friction_refuted`, `C82_yield_refuted`, `C82_unique_partial`, `C82_distance_partial`, `C82_tangent_partial`, `C82_calls`, `C82_history_partial`, `C81_elements_partial`, `C81_sampled`, `C81_solution_partial`, `C81_early_stop_refuted`, `C77_response_partial`, `C77_determined`, `C77_hbm_amp`, `C77_controlled`, `C77_hbm_amp_phase`, `C77_vprnm`, `C77_vprnm_amp_phase`, `C87_static`, `C87_harmonic`, `C73_elements_partial`, `C73_symmetric`, `C73_solution_partial`, `C73_early_stop_refuted`, `C70_prestress`, `C70_stuck`, `C70_elastic_partial`, `C70_damper_refuted`, `C70_friction_refuted`, `C70_static_kept_refuted`, `C70_static_kept_partial`, `C69_static`, `C69_prestress`, `C69_stuck`, `C69_update_refuted`, `C69_update_partial`, `C69_init_refuted`, `C69_aft_start_refuted`, `C69_aft_start_partial`, `C49_elements`, `C51_amp_zero`, `C52_epmc_jacobian`, `C52_epmc_zero`, `C47_frf_damping_partial`, `C54_linear_frf`, `C55_linear_frf_base_partial`, `C90_rate_partial`, `C90_conserved_partial`, `C90_two_springs_refuted`, `C85_elements_partial`, `C85_residual_partial`, `C85_solution_partial`, `C85_early_stop_refuted`, `C78_elements`, `C78_static`, `C78_history`, `C78_harmonic_partial`, `C78_solutions_partial`, `C78_friction_jacobian_partial`, `C78_jacobian`, `C78_nonlinear_mode`, `C78_tolerance_refuted`, `C78_damper_refuted`, `C68_rows`, `C68_resonance`, `C68_extra`, `C68_outside`, `C68_forces`, `C68_corrected`, `C68_returns`, `C92_last` |
| A1, A2, A3 | `C37_predictor`, `C38_pseudo_zero`, `C38_orthogonal_zero`, `C38_pseudo_gradient`, `C39_corrector_value`, `C39_corrector_jacobian`, `C40_converged_refuted`, `C40_accepted_partial`, `C40_converged_partial`, `C40_scaled_partial`, `C41_range_size`, `C41_step_control`, `C41_returns`, `C42_callbacks`, `C43_silent_refuted`, `C43_vector_RPtoC_refuted`, `C43_dynamic_CtoP_refuted`, `C43_settings_partial`, `C43_weights_partial`, `C74_exact`, `C55_other_numbers_raise`, `C71_elements`, `C71_residual`, `C71_bound_is_sharp`, `C02_time_series`, `C03_round_trip`, `C03_fourier_coefficients`, `C04_sample_count_partial`, `C04_rejects`, `C04_sample_count_refuted`, `C05_harmonic_stiffness`, `C05_harmonic_stiffness_coefficients`, `C07_rotation_is_delay`, `C07_rotation_group`, `C08_wrapping_range_partial`, `C15_aft`, `C15_aft_cubic`, `C15_aft_quintic`, `C15_aft_cubic_damping`, `C15_aft_unilateral`, `C15_aft_polynomial`, `C22_jenkins_aft`, `C22_iwan_aft`, `C28_steady_partial`, `C28_mean_only_refuted`, `C22_eldry_aft_partial`, `C22_eldry_open_contact_refuted`, `C31_protocol_partial`, `C31_returns`, `C31_returned_point_refuted`, `C32_config_partial`, `C32_config_refuted`, `C32_zero_steps_refuted`, `C29_steady_partial`, `C29_reversals`, `C29_plateau_refuted`, `C65_reproduces_partial`, `C65_tolerance_refuted`, `C65_unsupported_refuted`, `C84_shooting_refuted`, `C79_harmonic_balance`, `C88_motion`, `C72_polynomial`, `C80_sliding`, `C81_extension`, `C77_epmc`, `C77_file`, `C77_columns_partial`, `C77_mean_refuted`, `C77_labels_refuted`, `C73_extension`, `C49_hbm_zero`, `C63_no_grad_refuted`, `C50_dFl_zero`, `C51_amp_phase_zero`, `C51_amp_phase_dA_zero`, `C56_vprnm_value`, `C56_vprnm_independent`, `C56_vprnm_gradient`, `C56_vprnm_jacobian`, `C56_vprnm_zero`, `C56_vprnm_amp_phase_jacobian`, `C56_vprnm_amp_phase_zero`, `C47_frf_damping_refuted`, `C53_base_zero`, `C55_linear_frf_base_refuted`, `C57_all_forces_refuted`, `C57_no_force_refuted`, `C57_state_derivative_partial`, `C57_variational_partial`, `C58_shooting`, `C58_stability`, `C90_last` |
| A1, A3, A4 | `C17_vector_jenkins_cycle`, `C20_vector_jenkins_partial`, `C20_last_reversal_exists`, `C20_vector_steady`, `C20_vector_jenkins_refuted`, `C17_vector_iwan_cycle`, `C21_vector_iwan_partial`, `C21_vector_steady` |
| A1, A3 | `C35_roots`, `C35_jacobian_partial`, `C35_jacobian_refuted`, `C38_orthogonal_gradient`, `C43_list_refuted`, `C06_stiffness_derivative`, `C06_only_C`, `C09_conditioning_scalar`, `C09_conditioning_array_partial`, `C09_conditioning_array_refuted`, `C10_zero_crossing_partial`, `C10_zero_crossing_refuted`, `C16_jenkins_slip_bound`, `C16_jenkins_static_force`, `C16_jenkins_non_updating`, `C16_harmonic_non_updating_refuted`, `C17_jenkins_dissipation`, `C17_jenkins_cycle`, `C18_slider_two_cycles`, `C18_jenkins_two_cycles`, `C19_jenkins_steady_partial`, `C19_jenkins_steady_refuted`, `C19_more_repeats_no_effect`, `C22_jenkins_derivatives`, `C24_jenkins_reset`, `C24_jenkins_prestress`, `C24_jenkins_prestress_forces`, `C24_jenkins_round_trip`, `C25_static_history_refuted`, `C25_static_after_init_partial`, `C11_cubic`, `C11_quintic`, `C11_polynomial`, `C12_cubic`, `C12_quintic`, `C12_cubic_damping`, `C12_cubic_damping_force`, `C12_unilateral`, `C13_unilateral_law`, `C13_unilateral_force`, `C13_no_gradient_at_contact`, `C16_iwan_static_force`, `C16_iwan_non_updating`, `C17_iwan_dissipation`, `C17_iwan_cycle`, `C18_iwan_two_cycles`, `C19_iwan_steady_partial`, `C22_iwan_derivatives`, `C24_system_prestress_refuted`, `C28_reference_partial`, `C26_coulomb`, `C26_force_history`, `C26_static`, `C17_jax_jenkins_cycle`, `C17_dry_friction_energy`, `C17_dry_friction_cycle`, `C18_eldry_two_cycles`, `C22_eldry_static`, `C27_history_refuted`, `C27_normal_kept_partial`, `C27_looking_partial`, `C30_documented_partial`, `C30_relative_refuted`, `C33_range`, `C33_bracket_partial`, `C33_bracket_refuted`, `C33_same_sign`, `C33_tolerance`, `C34_two_loop`, `C34_secant`, `C64_full_step_skipped`, `C64_root_step_partial`, `C64_root_step_refuted`, `C84_static_partial`, `C84_hbm_partial`, `C45_linear_interp`, `C45_accepted`, `C46_cubic_pieces`, `C46_tangent`, `C46_upsample`, `C46_accepted`, `C46_upsample_accepted`, `C48_static_value`, `C48_static_jacobian`, `C49_hbm_jacobian`, `C63_no_grad_partial`, `C50_dFl_jacobian`, `C51_amp_jacobian`, `C51_amp_phase_jacobian`, `C51_amp_phase_dA_jacobian`, `C47_damping_kept_refuted`, `C53_base_value`, `C53_base_jacobian` |

`coqchk` additionally lists `Rdefinitions.RbaseSymbolsImpl`/`RinvImpl` fields and `ssr.ssrunder.Under_rel`, which are opaque
module fields of the standard library, not axioms added here.

## Modelled code

| file | modelled | not modelled |
|---|---|---|
| `utils/harmonic.py`, `jax/harmonic_utils.py` | all functions | nothing |
| `utils/continuation.py` | all functions | the text of headings, rounding of printed numbers |
| `continuation.py` | all | text output |
| `solvers.py` | `eigs`, `conditioning_wrapper`, `_conditioned_fun` | `lin_solve`, `lin_factor`, `lin_factored_solve`, `nsolve` (calls to numpy/scipy; oracles in the theorems) |
| `jax/solvers.py` | `NonlinearSolverOMP` incl. `nsolve`, `line_search`, `_check_convg`, `edit_config` | linear solves (oracles), printing |
| `vibration_system.py` | all residuals and their gradients, `set_new_C`, friction switching, `linear_frf(_base)`, shooting | `add_nl_force` (appends to the list) |
| `nlforces/*.py` | all elements | `HystereticForce` argument shapes with several local degrees of freedom for Jenkins/Iwan (the code raises) |
| `jax/nlforces/*.py` | all elements | JIT and tracing |
| `jax/nlforces/roughcontact/*.py` | all functions | `surface_fun`-style preparation outside the package |
| `postprocess/*.py` | all functions | |
| `roms/epmc.py` | all functions | arrays of other than the documented lengths |
| `roms/vprnm.py` | all functions | arrays of other than the documented lengths; rounding in the 1e-12 checks |

Floating point rounding, plotting, printing text, file formats, the MATLAB comparison, tests and example scripts are not
modelled.
