C01 proved ralpha_signs rp_signs ralpham_signs set_operations_signs
For RAlphaM with m < 0 the value at (0,0) is shown to be non-finite.

C02 proved r1_is_min_max rp2_is_r0 rp_values rp4_values rfun_de_morgan ralpha_conj_plus_disj

C03 proved ralpha_normalized rp_normalized rp_normalized_to_order rp_normalized_to_order_disj

C04 proved rho_blending_smooths

C05 partial rp_constructor_partial rp_constructor_refuted rp_zero_raises_refuted rp_minus_two_refuted
False: RP(0) raises ZeroDivisionError, RP(-2).conjunction(-1,2) > 0. Proved for even p >= 2.

C06 proved cuboid_at_origin cuboid_around_origin cube_membership cuboid_wrong_dimension

C07 partial sphere_membership cylinder_membership sphere_unit_gradient ellipsoid_membership_partial ellipsoid_derivative ellipsoid_membership_refuted
Sphere and cylinder in full. Ellipsoid everywhere except its centre, where forward-mode differentiation of norm gives NaN.

C08 proved translate_moves_set translations_add rotate2d_moves_set rotations2d_add

C09 partial rotate3d_moves_set_partial rotate3d_versus_rotate2d_partial rotate3d_euler_angles_partial rotate3d_moves_set_refuted
False: rotate3d turns the set by -angle, the opposite sense of rotate2d.

C10 proved scale_moves_set scale_keeps_sign scale_keeps_gradient scale_without_normalization_moves_set scale_rejects_vectors

C11 proved reflect_moves_set reflect_involution reflect_fixes_plane mirror_is_isometry reflect_origin_scalar reflect_needs_normal

C12 proved project_is_invariant project_keeps_plane project_origin_scalar revolution_around_x revolution_around_y revolution_rejects

C13 proved normalize_sign_and_range normalize_undefined_point normalize_is_normalized
The derivative claim assumes that the norm of the gradient is continuous along lines through the point.

C14 proved compose_is_left_fold compose_conjunction_signs compose_disjunction_signs compose_errors

C15 partial rotate3d_validation rotate_point_dimension_partial rotate_point_dimension_refuted
The ValueError part in full. Points of shape () or (1,) are silently broadcast by the translation to o; other wrong shapes are rejected.

C16 proved componentwise_operations quaternion_algebra quaternion_hamilton_table quaternion_inverse quaternion_inverse_of_zero quaternion_right_division quaternion_left_division quaternion_equality quaternion_constructor zero_quaternion_neutral
Multiplication is compared with Hamilton's coordinate formula; the reciprocal of 0 is non-finite.

C17 partial scalar_right_operand scalar_left_operand_partial scalar_minus_quaternion_refuted
s+q and s*q are right. The full claim is false: s - q evaluates q - s; it agrees with -(q - s) only for q with all four components equal to s.

C18 proved rotation_is_linear_isometry rotation_ignores_scaling rotation_undone_by_reciprocal rotation_composition

C19 proved axis_angle_unit axis_angle_rotation euler_angles_unit euler_angles_product euler_angles_rotation
from_axis_angle gives a unit quaternion for all angles exactly when the axis is a unit vector.

C20 proved reflection_is_mirror

C21 proved exp_of_log log_of_exp abs_of_exp power_is_iterated_product
The sgn threshold eps is an arbitrary non-negative parameter.

C22 partial exp_log_where_partial exp_log_negative_reals_partial powers_of_nearly_real_partial power_of_minus_one_refuted
False exactly on the negative reals (exp_log_where_partial: with eps = 0 it holds for every other non-zero quaternion): there exp(log q) = -q, and (-1)**1 = 1. With a positive threshold eps every non-zero quaternion with an imaginary part of norm at most eps is replaced by its absolute value.

C77 proved scalar_to_quaternion_power

C23 proved hypercube_transform_in_box hypercube_transform_onto hypercube_transform_one_to_one hypercube_transform_affine hypercube_transform_wraps hypercube_transform_negative hypercube_rejects
Negative coordinates are not wrapped (only values above 1 are): their image is outside the box.

C24 proved hypercube_bnd_on_boundary hypercube_bnd_face_intervals hypercube_bnd_onto hypercube_bnd_interval hypercube_bnd_rejects

C25 partial hypercube_normal_vec_partial hypercube_normal_vec_which_face hypercube_normal_vec_outside hypercube_normal_vec_refuted hypercube_normal_vec_batch_partial hypercube_normal_vec_batch_refuted
False at corners that lie on a lower and on an upper face (None), and for batches (a sample outside gets a normal if another one is inside). Proved for all other boundary points, any dimension; None off the boundary. Coordinates between "equal" and "not close" to a bound are excluded by the hypothesis `resolved`.

C26 proved annulus_transform_inside annulus_transform_onto annulus_transform_one_to_one disk_transform_inside sphere_transform_inside sphere_transform_onto
The ball points straight above the centre are not in the image (x % 1.0 never is 1).

C27 partial sphere_bnd_on_sphere disk_bnd_on_circle disk_bnd_onto sphere_bnd_onto_partial sphere_bnd_onto_refuted spherical_normal_vec_on_boundary spherical_normal_vec_unit spherical_normal_vec_off_boundary
All but: the north pole of the sphere is never reached.

C28 partial disk_bnd_one_to_one_partial disk_bnd_one_to_one_refuted
False: [0,1) covers the circle twice. One-to-one on [0,1/2).

C29 partial spherical_normal_vec_batch_partial spherical_normal_vec_batch_refuted spherical_normal_vec_batch_columns_refuted
Right for k = 1, and for k = dimension if all norms agree (else column j is divided by the norm of sample j); a shape error (TypeError) for every other k.

C30 proved affine_plane_interpolates affine_plane_is_unique parallelogram_transform parallelogram_support parallelogram_support_3d parallelogram_constructor

C31 partial parallelogram_bnd_partial parallelogram_bnd_refuted
False unless a is the origin: the path runs through a, a+b, a+b+c, c. Proved (into and onto) for a = 0.

C32 partial triangle_partial triangle_refuted triangle_3d_refuted
False: x[..., 0] is the whole sample, the indexing after [..., None] mixes up the coordinates. Right for right triangles aligned with the axes; a shape error in 3d.

C33 proved polyline_is_arc_length polyline_image polyline_covers polyline_degenerate_start polyline_needs_two_points

C78 proved annulus_transform_uniform disk_transform_uniform sphere_transform_uniform sphere_bnd_transform_uniform

C34 proved quadrature_exact quadrature_weights integrate_1d_scalar_result
In one dimension the integrand must return one value per node; a constant (scalar) result is a TypeError.

C35 proved gauss_composite_exact
The reference rule (numpy's leggauss) is a parameter; the degree 2 and 3 rules are checked as examples.

C36 proved integrate_is_iterated integrate_vector_is_iterated integrate_1d_is_sum integrate_linear integrate_product

C37 proved integrate_disk_constant integrate_disk_area integrate_disk_evaluates_inside integrate_disk_shift integrate_disk_formula integrate_disk_bad_counts integrate_sphere_formula integrate_sphere_evaluates_inside integrate_sphere_shift integrate_sphere_volume

C38 proved quadrature_additive

C39 proved quadrature_error

C40 proved odeint_output_structure odeint_causal odeint_restarts odeint_empty_ts odeint_structure_mismatch

C41 proved rk4_exact_for_cubics rk4_amplification euler_amplification constant_rhs_exact equilibria_fixed

C42 partial odeint_exact_for_cubics_partial odeint_exact_for_cubics_refuted
False: the step is evaluated at the new time, so the time argument of the dynamics is one step late. On uniform grids the result is the integral over the interval shifted by one step.

C43 proved odeint_rk4_autonomous odeint_euler_autonomous odeint_rk4_stable odeint_euler_stable rk4_factor_near_exp odeint_rk4_fourth_order

C44 proved spline_basis_defined spline_basis_support spline_basis_positive spline_basis_local

C45 proved spline_partition_of_unity spline_sum_at_most_one spline_zero_outside

C46 proved make_grid_spec make_grid_power_law

C47 partial make_grid_covers_partial make_grid_covers_refuted
False for start > stop: the grid runs from start to start + |start - stop|.

C48 proved default_spline_is_activation spline_activation_defined spline_activation_value spline_activation_outside spline_activation_outside_own_grid spline_activation_zero_coefs spline_activation_bound spline_activation_bound_own_grid spline_activation_constant_coefs spline_activation_default

C79 proved spline_marsden_identity spline_linear_precision spline_basis_continuous spline_basis_derivative

C49 proved steihaug_region steihaug_iterations

C50 proved steihaug_decrease

C51 proved update_improves run_monotone converged_stays

C52 proved radius_in_bounds runs_succeed

C53 proved rejection_shrinks rejections_bound

C54 partial infinite_values_rejected nan_trial_shrinks_partial nan_trial_shrinks_refuted nan_trial_stalls
False: with a nan trial value the ratio is nan, both comparisons fail, the radius stays and the same trial point is tried for ever. Every other rejected trial shrinks the radius.

C55 proved state_describes error_is_optimality update_counts frozen_forever

C56 proved inner_tolerance

C57 proved tr_construction warm_start

C80 proved steihaug_terminates steihaug_default_converges steihaug_longer_steps

C58 proved without_replacement_batches without_replacement_rows batches_reject_mismatch without_replacement_zero_batch
Assumes the contract of jax.random.permutation. Non-negative batch sizes.

C59 proved with_replacement_batches with_replacement_rejects with_replacement_rejects_empty
Assumes the contract of the sampler inside jax.random.choice.

C60 proved iterator_yields_batches iterator_count iterator_keys_used_once iterator_propagates_errors

C61 proved samples_are_accepted sampling_terminates sampling_keys_distinct

C62 partial zero_density_refuted nan_density_refuted zero_density_partial
False: u = 0 accepts a sample of density 0 and a nan density is always accepted. True when the uniform draws are positive and the density is never nan.

C63 proved sampling_probability sampling_proportional sampling_limit proposals_covered sampling_any_proposal sampling_cdf
Ideal randomness: independent proposals and uniform numbers in every round.

C75 proved make_funs_normalizes make_funs_agree make_funs_missing_aux make_funs_wrong_tuple make_funs_wrong_aux

C81 proved tree_dim_is_common_size tree_dim_agrees_with_axis_size tree_dim_rejects single_dtype

C67 proved derivative_names_in_order derivative_of_position derivative_of_positions derivative_order derivative_of_names derivative_of_component derivative_of_components derivative_of_vector derivative_forms
0-d arguments: partial and iterated partial derivatives for any number of arguments and any list of positions or names, independent of the order for smooth functions (permutation theorem). Vector arguments: components through argnums, one or several arguments, negative component and argument numbers included; without argnums all entries of a vector move together, so the result is the sum of its partials.

C68 partial unknown_name_raises_partial selector_mistakes_raise_partial missed_position_gives_zero missed_component_gives_zero keyword_argument_gives_zero selectors_honoured_refuted
The full statement is refuted: a negative or out-of-range position, an out-of-range component and a keyword-passed argument silently give a zero derivative, and a bare multi-letter string is taken letter by letter (so derivative("xy") raises although "xy" is a parameter). What holds: in-range positions and names (C67) and unknown names, which raise.

C69 proved divergence_is_sum_of_partials divergence_argnum_out_of_range curl_in_3d curl_in_2d curl_other_dimensions laplace_is_sum_of_second_partials laplace_of_vector_field laplace_of_0d_argument divergence_of_curl_vanishes curl_of_gradient_vanishes curl2d_of_gradient_vanishes laplace_is_divergence_of_gradient laplace_of_array_point
1-d points of any size (curl: 2 and 3), 0-d points for laplace, and points with several axes for laplace, which ravels them before it calls the function. The identities need C2 on an open set; the formulas need nothing.

C70 proved array_misfit_raises hvp_is_hessian_times_vector forward_over_reverse_is_hvp reverse_over_reverse_is_hvp hvp_linear hvp_rejects_other_shapes value_grad_hvp_four_conventions
One 1-d primal of any size; C2 on an open set; all four combinations of value_and_grad and has_aux. For value_and_grad=True the user's gradient is assumed to be the gradient. Pytree primals: C111.

C64 proved impose_dirichlet_arguments impose_dirichlet_argument broadcast_shapes dirichlet_formula dirichlet_exact dirichlet_homogeneous dirichlet_broadcast impose_forms_agree argnums_select argnums_out_of_range

C65 proved impose_neumann_arguments neumann_exact neumann_homogeneous neumann_formula
Free model with results of any shape and a single point argument among any other arguments; directional derivatives are those of the tensor model (jvp along a line).

C66 proved ic_formula ic_exact_at_t0 ic_convex_combination ic_tends_to_model

C76 proved mlp_forward mlp_initialised mlp_needs_output_layer mlp_rejects_other_sizes mlp_rejects_0d

C82 partial negative_argnums_partial negative_argnum_model_partial last_argnum_model_repeats negative_argnum_model_refuted
Holds for argnums_adf, argnums_g, argnums_h, argnums_m0, argnum_t and every argnum_model below -1; refuted for argnum_model = -1 of impose_neumann_bc, where the slices args[:-1] and args[0:] repeat the arguments.

C71 proved surface_integral_formula surface_elements_formula surface_elements_sum surface_midpoints surface_rejections surface_integral_parallelogram
Grids with two or more non-decreasing points; rules midpoint, trap, simpson and gauss with any exact table; parametrizations that evaluate on an open set around the parameter rectangle.

C72 proved single_layer_potential_taylor single_layer_potential_polynomial layer_order_rejected
All orders, not only 0..2; target point not on the surface. Vector and tensor charges included (index rotation: see C83).

C73 proved scalar_charge_formula vector_charge_formula scalar_charges_related vector_charges_related scalar_charge_rescaled vector_charge_rescaled charges_undefined
The scalar charge in every dimension, the vector charge in three dimensions. Invariance under rescaling is proved for both variants of the charge.

C74 proved curl_of_single_layer_potential curl_of_layer gradient_of_layer
Targets in an open set that does not meet the surface.

C83 partial layer_potential_axes layer_potential_axes_refuted
Holds for scalar and vector charges; refuted for a (2,3) matrix charge, whose potential has shape (3,2): swapaxes(-1, 0) in charge_tensor also moves the first axis of the value to the end.

C84 proved cayley_defined cayley_isometry cayley_axis_angle cayley_wrong_length
solve_lu is modelled as exact elimination by Cramer's rule.

C85 proved cuboid_support_volume cuboid_constructor cuboid_normalize cuboid_adf_membership
Grids are one-dimensional by typing. includes, support, transform and transform_bnd only forward to Hypercube (see C23-C33).

C86 proved cuboid_normal cuboid_normal_batch
stop_gradient has no effect on values.

C87 proved cuboid_faces
All grids accepted by the constructor.

C88 proved box_surface_integral box_single_layer box_expansion
subintervals is a positive int; target off the closed surface. The default tuple is C90.

C89 proved stray_field_variants
phi1 is any potential with partial derivatives at the target; the least squares fit of its weights is C102.

C90 partial int_subintervals_partial default_subintervals_refuted
Refuted: the default is the tuple (1, 1, 1) and integrate_face computes subintervals + 1, a TypeError. With a positive int it holds.

C91 proved first_potential second_charge
The weights are a parameter. The expansions of the charge are those with the constant normal of the side, so stop_gradient makes no difference.

C92 proved hypercube_support_volume round_supports
Radii non-negative. The parallelogram is in C30.

C93 proved hypercube_batch hypercube_boundary_batch rectangle_boundary_scalars interval_boundary_batch round_batch parallelogram_batch polyline_batch parallelogram_boundary_batch triangle_batch includes_batch batch_points_inside round_constructors round_wrong_origin
Array inputs of any leading shape. A 1-d array of samples of the boundary of a rectangle is an array of scalar samples.

C94 partial squeeze_row squeeze_column circle_boundary_batch_partial circle_boundary_batch_refuted
False for arrays with an axis of size 1: squeeze() removes it, so one sample in an array of shape (1,) gives a single point of shape (2,). Proved for all shapes without axes of size 1.

C95 proved jacfwd_is_jacobian jacrev_is_jacobian jacfwd_of_several_arguments jacrev_of_several_arguments jacobian_with_aux jacobian_modes_agree jacobian_argnum_out_of_range
Array outputs (pytrees: C110). Reverse mode is modelled as the gradient of the inner product with each unit array of the output.

C96 proved divergence_of_scalar_function divergence_of_other_dimension divergence_of_matrix_field divergence_of_other_ranks
1-d arguments. Square fields are C69.

C97 proved module_laplace module_divergence module_curl_in_3d module_curl_in_2d module_derivative_of_components module_derivative_of_positions module_derivative
The variables p are one array.

C98 partial module_names_partial module_unknown_names_partial module_names_refuted
Refuted: the second and later names are looked up in the signature of the module's own __call__, so ['x','p'] raises while ['p','x'] works, and another parameter name at position 1 selects the variables.

C99 proved pytree_roundtrip pytree_children pytree_map_elementwise vmap_of_quaternions_raises
Dtypes are in C106.

C100 proved tr_stops
Explicit bound on the number of updates. Exact arithmetic; the objective is finite everywhere with a symmetric Hessian whose quadratic form is bounded, and bounded below.

C101 proved tr_converges
Adds the descent inequality of a Lipschitz gradient and a minimal radius below the safe radius; then the tolerance is reached, not only the minimal radius.

C102 proved stray_fit stray_fit_exact stray_fit_singular
The SVD is any function that returns a reduced singular value decomposition of the fit matrix. Exact arithmetic; points strictly inside the box.

C103 proved stray_field_solver
Composition of C89, C91 and C102 for targets strictly inside the box.

C104 proved quadrature_order quadrature_converges quadrature_error_nd quadrature_order_nd
Taylor polynomial about the middle of each panel; the integrand has K+1 derivatives on an open interval around the grid.

C105 proved odeint_euler_error odeint_rk4_error odeint_rk4_second_order_refuted odeint_rk4_order_four
Holds with the step times as odeint passes them; the refutation shows that the first order is sharp for rk4 with time dependent right-hand sides (see C42).

C106 partial quaternion_dtypes integer_quaternions_partial integer_quaternions_refuted float_quaternions quaternion_result_dtypes rotate2d_integer_angle_refuted rotate2d_integer_angle_partial spline_grid_integer_input_refuted spline_grid_input_partial simpson_integer_grid_refuted simpson_integer_grid_partial odeint_integer_state_refuted odeint_state_partial
Refuted: simpson truncates the midpoints of an integer grid, odeint with rk4 raises for an integer initial value, rotate2d truncates its matrix to the dtype of an integer angle and so collapses every point onto the centre for each non-zero integer angle (pi is irrational), a trainable spline grid is truncated to the dtype of an integer input, and exp, log and powers of integer quaternions raise. The remaining operations agree, and float arguments are unaffected.

C107 partial average_rounds_refuted average_rounds_partial average_rounds_interval_partial
The average is m divided by the mean of the density under the proposals. It is m only if that mean is 1, e.g. for a normalised density and uniform proposals on a set of volume 1. Ideal randomness as in C63.

C108 proved density_above_m_cut_off
Ideal randomness as in C63.

C109 proved surface_integral_order single_layer_potential_error box_potential_error
Exact arithmetic; the integrands are smooth in the parameters on the closed rectangle, targets keep a positive distance to the surface.

C110 proved laplace_of_tree laplace_of_tree_at_0d_point divergence_of_tree divergence_of_tree_with_tensor_leaf divergence_of_several_arguments curl_of_tree_in_3d curl_of_tree_in_2d curl_of_tree_with_wrong_leaf curl_of_tree_with_scalar_leaf
A pytree is its treedef and the list of its leaves. Argument numbers that name an argument twice are not modelled.

C111 proved hvp_of_trees forward_over_reverse_of_trees reverse_over_reverse_of_tree value_grad_hvp_of_tree hvp_of_trees_with_other_shapes objective_does_not_fit_options
A pytree is the list of its leaves; tree_vdot and tree_add of jaxopt are modelled as sums over the leaves. hvp is stated for scalar functions.

C112 proved tr_aux_distinguished tr_objective_of_function tr_value_grad_hvp_agrees tr_of_function_decreases tr_of_function_converges
The number of updates is given; the outer loop of jaxopt (stop at error <= tol or maxiter) is a dependency and not modelled. For value_and_grad=True the user's gradient is assumed to be the gradient.

C113 partial tr_fd_hvp_error tr_fd_prediction_error tr_fd_accepts tr_fd_decreases_partial tr_fd_decreases_refuted
The error bounds and the acceptance rule hold in full. The last sentence is false: the difference quotient is not linear in p, so the predicted reduction can be negative, and then a large increase of the objective counts as a good step and is accepted. It holds if the subproblem solver uses one direction only (one parameter, or maxiter_steihaug <= 1) and M |fd_h| max_tr_radius (1 + max_tr_radius / tol) < 2, or if the quotients are exact (C112).

C114 proved solid_sign_decides_membership solid_continuous solid_watertight ralpha_normalized_system rp_normalized_system
By induction on the expression. inside and outside are defined by geometry in S_Solid.v; outside is not the complement of inside, the boundary belongs to neither.

C115 proved solid_unit_normal solid_normal_points_inside ralpha_normalized_system rp_normalized_system stretch_unit_normal_refuted
By induction on the expression, with the total (Frechet) derivative. stretch_unit_normal_refuted shows why scale_without_normalization is left out.

C116 proved pacman_membership pacman_unit_normal
The shape is written with coordinates in S_Notebook.v. The half spaces of the mouth are user functions inside the expression language of C114.

C117 proved hard_constraint_boundary_value hard_constraint_normal_derivative elm_boundary_value
The ansatz with g is the general form; the notebook uses g = 0.

C118 proved elm_poisson_fit elm_poisson_no_ridge
svd is any function that meets the contract is_svd for the fit matrix. The code differentiates norm(.) ** 2, which is nan at a centre; the hypothesis that no collocation point is a centre excludes this.

C119 proved jacobians_of_tree jacobians_of_tree_for_several_arguments derivative_of_tree_at_positions derivative_of_tree_by_names derivative_of_tree_components derivative_of_tree_called_directly
A pytree is its treedef and the list of its leaves. Reverse mode is one gradient of the inner product with each element of the standard basis of all leaves. Pytree arguments of Jacobians are not modelled.

C120 partial rounded_r0_never_wrong_partial rounded_r0_accuracy rounded_r0_strict_sign_refuted
A positive value is only returned at points of the set, a negative one only at other points; but the value can be 0 at points strictly inside or outside, in every precision (refuted). Each operation is rounded once, no fused multiply-add.

C121 partial float32_r0_conjunction_partial float32_r0_disjunction_partial float32_r0_underflow_refuted float32_r0_overflow_refuted float32_r1_nan_refuted float32_r1_accuracy_refuted
r0 is proved for numbers that are 0 or have a magnitude from 2^-63 to 2^63. Below, a conjunction with a negative operand can be positive; above, it is -inf for positive operands. r1, documented as min and max, is nan for some close positive numbers and has an error of 2^-12 for others. IEEE 754 arithmetic is the one of Flocq.

C122 partial tr_run_number_of_updates tr_run_decreases tr_run_reaches_tolerance_partial tr_run_tolerance_refuted
The tolerance is reached if maxiter is above an explicit bound, for functions that are bounded below with bounded second derivatives; for the identity of a scalar it is not reached with any maxiter (refuted). The loop is jaxopt's IterativeSolver.run as we read it, whose source is not in the repository.

C123 proved axis_size_of_any_axis axis_size_errors axis_size_axis_0

C124 partial magnetization_is_unit initial_magnetization vortex_partial vortex_axis_refuted
m_vortex divides by 0 on the axis x = z = 0 (refuted); everywhere else it is the unit vector of its formula. The network is an arbitrary function with results of length 3.

C125 proved hysteresis_energies hysteresis_energy_bounds mumag_energies mumag_energy_bounds
The stray field solver is an arbitrary function with results of length 3.

C126 partial hysteresis_gradient_partial hysteresis_tr_stuck_refuted
For reciprocal solvers the gradient is that of e_tot, but not that of the value of the loss, which TR compares. With the local demagnetizing field of a thin film as solver, TR rejects every step although the gradient norm is far above tol and the steps lower e_tot (refuted). This solver is not the one of the notebook, which is only an arbitrary function here.

C127 proved solid_neumann solid_neumann_homogeneous solid_dirichlet solid_continuously_differentiable ralpha_smooth_system rp_smooth_system
Smooth boundary points are those of C115 (smooth) that no kink of a part passes through (kink_free); solids with an ellipsoid or RAlpha(1) are left out of the Neumann theorems, not of the Dirichlet theorem. The free model must be continuously differentiable and the data continuous at the point.

C128 proved radius_rule steihaug_limit_step
The ratio and the step length are those stored in the new state.

C129 partial one_row_batch one_row_cylinder_refuted rotation_rejects_batch batch_of_boxes batch_positive_all_inside_partial batch_positive_all_inside_refuted batch_complement_refuted batch_reflection_shape_error batch_reflection_refuted batch_scale_vector_raises
That the sign tells whether all points are inside is proved for boxes and refuted for spheres, complements and reflections; norm of a 2-d array runs over all entries. User functions are assumed to return one number.

C130 proved disk_quadrature_error sphere_quadrature_error disk_quadrature_converges sphere_quadrature_converges
The integral is the iterated Riemann integral with the factors rho and rho^2 sin(phi); that it equals the area or volume integral (change of variables) is not proved.

C131 proved float32_box_sample float32_box_accuracy float32_samples_included float32_includes float32_box_sample_one_refuted float32_box_overflow_refuted
The documented range includes the sample 1, and the code accepts edge lengths that overflow; for both the box is left, with witnesses. Operations are not fused and subnormal numbers are not flushed to 0; samples of other shapes are left out.

C132 partial rounded_cuboid_never_wrong rounded_shifted_cuboid_never_wrong rounded_boxes_never_wrong rounded_sphere_sign_partial rounded_sphere_defined float32_sphere_sign_refuted
The sign of the ball is proved up to a margin and refuted without it. The exponent range is unbounded in the proved statements; operations are not fused; the radius is a number of the dtype of the points.

C133 proved spline_derivatives_defined spline_derivatives_from_right spline_derivatives_exact spline_derivatives_above_degree spline_directional_derivative spline_reverse_transpose spline_reverse_input spline_reverse_shape spline_make_grid_separated spline_reverse_repeated_nodes spline_reverse_any_grid_refuted
Forward and reverse rules of add, sub, mul, div and where are modelled as jax defines them; the last theorem records that reverse mode does not agree with forward mode on every sorted grid.

C134 proved adf_derivative_sound r_function_derivatives_sound r_function_derivatives_finite adf_jvp adf_jacfwd ellipsoid_derivative sphere_gradient_refuted cylinder_gradient_refuted r1_gradient_refuted
The forward rules of the jax primitives used by r_fun are modelled as jax defines them; the last three theorems record where the derivative is not finite although the ADF is differentiable.

C135 partial integrate_arguments disk_arguments_partial sphere_arguments_partial limits_given_twice keyword_arguments_refuted positional_arguments_refuted
Holds for integrate. For the disk and the sphere the first positional arguments are the limits, and keywords named u, t or domain always raise, because they collide with parameters of inner functions. Limits that are arrays are not modelled.

C136 proved odeint_jvp_sound odeint_method_sound odeint_jvp_exists odeint_vjp_sound odeint_gradient odeint_method_gradient odeint_vjp_times_sound odeint_times_gradient odeint_args_gradient
The derivative of the dynamics is a parameter. Reverse mode is proved jointly for the initial value and the times, and for the initial value and the additional arguments.
