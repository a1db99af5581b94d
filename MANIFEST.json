{
 "claims": [
  {
   "property": "C01",
   "status": "proved",
   "theorems": [
    "ralpha_signs",
    "rp_signs",
    "ralpham_signs",
    "set_operations_signs"
   ],
   "note": "For RAlphaM with m < 0 the value at (0,0) is shown to be non-finite."
  },
  {
   "property": "C02",
   "status": "proved",
   "theorems": [
    "r1_is_min_max",
    "rp2_is_r0",
    "rp_values",
    "rp4_values",
    "rfun_de_morgan",
    "ralpha_conj_plus_disj"
   ],
   "note": ""
  },
  {
   "property": "C03",
   "status": "proved",
   "theorems": [
    "ralpha_normalized",
    "rp_normalized",
    "rp_normalized_to_order",
    "rp_normalized_to_order_disj"
   ],
   "note": ""
  },
  {
   "property": "C04",
   "status": "proved",
   "theorems": [
    "rho_blending_smooths"
   ],
   "note": ""
  },
  {
   "property": "C05",
   "status": "partial",
   "theorems": [
    "rp_constructor_partial",
    "rp_constructor_refuted",
    "rp_zero_raises_refuted",
    "rp_minus_two_refuted"
   ],
   "note": "False: RP(0) raises ZeroDivisionError, RP(-2).conjunction(-1,2) > 0. Proved for even p >= 2."
  },
  {
   "property": "C06",
   "status": "proved",
   "theorems": [
    "cuboid_at_origin",
    "cuboid_around_origin",
    "cube_membership",
    "cuboid_wrong_dimension"
   ],
   "note": ""
  },
  {
   "property": "C07",
   "status": "partial",
   "theorems": [
    "sphere_membership",
    "cylinder_membership",
    "sphere_unit_gradient",
    "ellipsoid_membership_partial",
    "ellipsoid_derivative",
    "ellipsoid_membership_refuted"
   ],
   "note": "Sphere and cylinder in full. Ellipsoid everywhere except its centre, where forward-mode differentiation of norm gives NaN."
  },
  {
   "property": "C08",
   "status": "proved",
   "theorems": [
    "translate_moves_set",
    "translations_add",
    "rotate2d_moves_set",
    "rotations2d_add"
   ],
   "note": ""
  },
  {
   "property": "C09",
   "status": "partial",
   "theorems": [
    "rotate3d_moves_set_partial",
    "rotate3d_versus_rotate2d_partial",
    "rotate3d_euler_angles_partial",
    "rotate3d_moves_set_refuted"
   ],
   "note": "False: rotate3d turns the set by -angle, the opposite sense of rotate2d."
  },
  {
   "property": "C10",
   "status": "proved",
   "theorems": [
    "scale_moves_set",
    "scale_keeps_sign",
    "scale_keeps_gradient",
    "scale_without_normalization_moves_set",
    "scale_rejects_vectors"
   ],
   "note": ""
  },
  {
   "property": "C11",
   "status": "proved",
   "theorems": [
    "reflect_moves_set",
    "reflect_involution",
    "reflect_fixes_plane",
    "mirror_is_isometry",
    "reflect_origin_scalar",
    "reflect_needs_normal"
   ],
   "note": ""
  },
  {
   "property": "C12",
   "status": "proved",
   "theorems": [
    "project_is_invariant",
    "project_keeps_plane",
    "project_origin_scalar",
    "revolution_around_x",
    "revolution_around_y",
    "revolution_rejects"
   ],
   "note": ""
  },
  {
   "property": "C13",
   "status": "proved",
   "theorems": [
    "normalize_sign_and_range",
    "normalize_undefined_point",
    "normalize_is_normalized"
   ],
   "note": "The derivative claim assumes that the norm of the gradient is continuous along lines through the point."
  },
  {
   "property": "C14",
   "status": "proved",
   "theorems": [
    "compose_is_left_fold",
    "compose_conjunction_signs",
    "compose_disjunction_signs",
    "compose_errors"
   ],
   "note": ""
  },
  {
   "property": "C15",
   "status": "partial",
   "theorems": [
    "rotate3d_validation",
    "rotate_point_dimension_partial",
    "rotate_point_dimension_refuted"
   ],
   "note": "The ValueError part in full. Points of shape () or (1,) are silently broadcast by the translation to o; other wrong shapes are rejected."
  },
  {
   "property": "C16",
   "status": "proved",
   "theorems": [
    "componentwise_operations",
    "quaternion_algebra",
    "quaternion_hamilton_table",
    "quaternion_inverse",
    "quaternion_inverse_of_zero",
    "quaternion_right_division",
    "quaternion_left_division",
    "quaternion_equality",
    "quaternion_constructor",
    "zero_quaternion_neutral"
   ],
   "note": "Multiplication is compared with Hamilton's coordinate formula; the reciprocal of 0 is non-finite."
  },
  {
   "property": "C17",
   "status": "partial",
   "theorems": [
    "scalar_right_operand",
    "scalar_left_operand_partial",
    "scalar_minus_quaternion_refuted"
   ],
   "note": "s+q and s*q are right. The full claim is false: s - q evaluates q - s; it agrees with -(q - s) only for q with all four components equal to s."
  },
  {
   "property": "C18",
   "status": "proved",
   "theorems": [
    "rotation_is_linear_isometry",
    "rotation_ignores_scaling",
    "rotation_undone_by_reciprocal",
    "rotation_composition"
   ],
   "note": ""
  },
  {
   "property": "C19",
   "status": "proved",
   "theorems": [
    "axis_angle_unit",
    "axis_angle_rotation",
    "euler_angles_unit",
    "euler_angles_product",
    "euler_angles_rotation"
   ],
   "note": "from_axis_angle gives a unit quaternion for all angles exactly when the axis is a unit vector."
  },
  {
   "property": "C20",
   "status": "proved",
   "theorems": [
    "reflection_is_mirror"
   ],
   "note": ""
  },
  {
   "property": "C21",
   "status": "proved",
   "theorems": [
    "exp_of_log",
    "log_of_exp",
    "abs_of_exp",
    "power_is_iterated_product"
   ],
   "note": "The sgn threshold eps is an arbitrary non-negative parameter."
  },
  {
   "property": "C22",
   "status": "partial",
   "theorems": [
    "exp_log_where_partial",
    "exp_log_negative_reals_partial",
    "powers_of_nearly_real_partial",
    "power_of_minus_one_refuted"
   ],
   "note": "False exactly on the negative reals (exp_log_where_partial: with eps = 0 it holds for every other non-zero quaternion): there exp(log q) = -q, and (-1)**1 = 1. With a positive threshold eps every non-zero quaternion with an imaginary part of norm at most eps is replaced by its absolute value."
  },
  {
   "property": "C23",
   "status": "proved",
   "theorems": [
    "hypercube_transform_in_box",
    "hypercube_transform_onto",
    "hypercube_transform_one_to_one",
    "hypercube_transform_affine",
    "hypercube_transform_wraps",
    "hypercube_transform_negative",
    "hypercube_rejects"
   ],
   "note": "Negative coordinates are not wrapped (only values above 1 are): their image is outside the box."
  },
  {
   "property": "C24",
   "status": "proved",
   "theorems": [
    "hypercube_bnd_on_boundary",
    "hypercube_bnd_face_intervals",
    "hypercube_bnd_onto",
    "hypercube_bnd_interval",
    "hypercube_bnd_rejects"
   ],
   "note": ""
  },
  {
   "property": "C25",
   "status": "partial",
   "theorems": [
    "hypercube_normal_vec_partial",
    "hypercube_normal_vec_which_face",
    "hypercube_normal_vec_outside",
    "hypercube_normal_vec_refuted",
    "hypercube_normal_vec_batch_partial",
    "hypercube_normal_vec_batch_refuted"
   ],
   "note": "False at corners that lie on a lower and on an upper face (None), and for batches (a sample outside gets a normal if another one is inside). Proved for all other boundary points, any dimension; None off the boundary. Coordinates between \"equal\" and \"not close\" to a bound are excluded by the hypothesis `resolved`."
  },
  {
   "property": "C26",
   "status": "proved",
   "theorems": [
    "annulus_transform_inside",
    "annulus_transform_onto",
    "annulus_transform_one_to_one",
    "disk_transform_inside",
    "sphere_transform_inside",
    "sphere_transform_onto"
   ],
   "note": "The ball points straight above the centre are not in the image (x % 1.0 never is 1)."
  },
  {
   "property": "C27",
   "status": "partial",
   "theorems": [
    "sphere_bnd_on_sphere",
    "disk_bnd_on_circle",
    "disk_bnd_onto",
    "sphere_bnd_onto_partial",
    "sphere_bnd_onto_refuted",
    "spherical_normal_vec_on_boundary",
    "spherical_normal_vec_unit",
    "spherical_normal_vec_off_boundary"
   ],
   "note": "All but: the north pole of the sphere is never reached."
  },
  {
   "property": "C28",
   "status": "partial",
   "theorems": [
    "disk_bnd_one_to_one_partial",
    "disk_bnd_one_to_one_refuted"
   ],
   "note": "False: [0,1) covers the circle twice. One-to-one on [0,1/2)."
  },
  {
   "property": "C29",
   "status": "partial",
   "theorems": [
    "spherical_normal_vec_batch_partial",
    "spherical_normal_vec_batch_refuted",
    "spherical_normal_vec_batch_columns_refuted"
   ],
   "note": "Right for k = 1, and for k = dimension if all norms agree (else column j is divided by the norm of sample j); a shape error (TypeError) for every other k."
  },
  {
   "property": "C30",
   "status": "proved",
   "theorems": [
    "affine_plane_interpolates",
    "affine_plane_is_unique",
    "parallelogram_transform",
    "parallelogram_support",
    "parallelogram_support_3d",
    "parallelogram_constructor"
   ],
   "note": ""
  },
  {
   "property": "C31",
   "status": "partial",
   "theorems": [
    "parallelogram_bnd_partial",
    "parallelogram_bnd_refuted"
   ],
   "note": "False unless a is the origin: the path runs through a, a+b, a+b+c, c. Proved (into and onto) for a = 0."
  },
  {
   "property": "C32",
   "status": "partial",
   "theorems": [
    "triangle_partial",
    "triangle_refuted",
    "triangle_3d_refuted"
   ],
   "note": "False: x[..., 0] is the whole sample, the indexing after [..., None] mixes up the coordinates. Right for right triangles aligned with the axes; a shape error in 3d."
  },
  {
   "property": "C33",
   "status": "proved",
   "theorems": [
    "polyline_is_arc_length",
    "polyline_image",
    "polyline_covers",
    "polyline_degenerate_start",
    "polyline_needs_two_points"
   ],
   "note": ""
  },
  {
   "property": "C34",
   "status": "proved",
   "theorems": [
    "quadrature_exact",
    "quadrature_weights",
    "integrate_1d_scalar_result"
   ],
   "note": "In one dimension the integrand must return one value per node; a constant (scalar) result is a TypeError."
  },
  {
   "property": "C35",
   "status": "proved",
   "theorems": [
    "gauss_composite_exact"
   ],
   "note": "The reference rule (numpy's leggauss) is a parameter; the degree 2 and 3 rules are checked as examples."
  },
  {
   "property": "C36",
   "status": "proved",
   "theorems": [
    "integrate_is_iterated",
    "integrate_vector_is_iterated",
    "integrate_1d_is_sum",
    "integrate_linear",
    "integrate_product"
   ],
   "note": ""
  },
  {
   "property": "C37",
   "status": "proved",
   "theorems": [
    "integrate_disk_constant",
    "integrate_disk_area",
    "integrate_disk_evaluates_inside",
    "integrate_disk_shift",
    "integrate_disk_formula",
    "integrate_disk_bad_counts",
    "integrate_sphere_formula",
    "integrate_sphere_evaluates_inside",
    "integrate_sphere_shift",
    "integrate_sphere_volume"
   ],
   "note": ""
  },
  {
   "property": "C38",
   "status": "proved",
   "theorems": [
    "quadrature_additive"
   ],
   "note": ""
  },
  {
   "property": "C39",
   "status": "proved",
   "theorems": [
    "quadrature_error"
   ],
   "note": ""
  },
  {
   "property": "C40",
   "status": "proved",
   "theorems": [
    "odeint_output_structure",
    "odeint_causal",
    "odeint_restarts",
    "odeint_empty_ts",
    "odeint_structure_mismatch"
   ],
   "note": ""
  },
  {
   "property": "C41",
   "status": "proved",
   "theorems": [
    "rk4_exact_for_cubics",
    "rk4_amplification",
    "euler_amplification",
    "constant_rhs_exact",
    "equilibria_fixed"
   ],
   "note": ""
  },
  {
   "property": "C42",
   "status": "partial",
   "theorems": [
    "odeint_exact_for_cubics_partial",
    "odeint_exact_for_cubics_refuted"
   ],
   "note": "False: the step is evaluated at the new time, so the time argument of the dynamics is one step late. On uniform grids the result is the integral over the interval shifted by one step."
  },
  {
   "property": "C43",
   "status": "proved",
   "theorems": [
    "odeint_rk4_autonomous",
    "odeint_euler_autonomous",
    "odeint_rk4_stable",
    "odeint_euler_stable",
    "rk4_factor_near_exp",
    "odeint_rk4_fourth_order"
   ],
   "note": ""
  },
  {
   "property": "C44",
   "status": "proved",
   "theorems": [
    "spline_basis_defined",
    "spline_basis_support",
    "spline_basis_positive",
    "spline_basis_local"
   ],
   "note": ""
  },
  {
   "property": "C45",
   "status": "proved",
   "theorems": [
    "spline_partition_of_unity",
    "spline_sum_at_most_one",
    "spline_zero_outside"
   ],
   "note": ""
  },
  {
   "property": "C46",
   "status": "proved",
   "theorems": [
    "make_grid_spec",
    "make_grid_power_law"
   ],
   "note": ""
  },
  {
   "property": "C47",
   "status": "partial",
   "theorems": [
    "make_grid_covers_partial",
    "make_grid_covers_refuted"
   ],
   "note": "False for start > stop: the grid runs from start to start + |start - stop|."
  },
  {
   "property": "C48",
   "status": "proved",
   "theorems": [
    "default_spline_is_activation",
    "spline_activation_defined",
    "spline_activation_value",
    "spline_activation_outside",
    "spline_activation_outside_own_grid",
    "spline_activation_zero_coefs",
    "spline_activation_bound",
    "spline_activation_bound_own_grid",
    "spline_activation_constant_coefs",
    "spline_activation_default"
   ],
   "note": ""
  },
  {
   "property": "C49",
   "status": "proved",
   "theorems": [
    "steihaug_region",
    "steihaug_iterations"
   ],
   "note": ""
  },
  {
   "property": "C50",
   "status": "proved",
   "theorems": [
    "steihaug_decrease"
   ],
   "note": ""
  },
  {
   "property": "C51",
   "status": "proved",
   "theorems": [
    "update_improves",
    "run_monotone",
    "converged_stays"
   ],
   "note": ""
  },
  {
   "property": "C52",
   "status": "proved",
   "theorems": [
    "radius_in_bounds",
    "runs_succeed"
   ],
   "note": ""
  },
  {
   "property": "C53",
   "status": "proved",
   "theorems": [
    "rejection_shrinks",
    "rejections_bound"
   ],
   "note": ""
  },
  {
   "property": "C54",
   "status": "partial",
   "theorems": [
    "infinite_values_rejected",
    "nan_trial_shrinks_partial",
    "nan_trial_shrinks_refuted",
    "nan_trial_stalls"
   ],
   "note": "False: with a nan trial value the ratio is nan, both comparisons fail, the radius stays and the same trial point is tried for ever. Every other rejected trial shrinks the radius."
  },
  {
   "property": "C55",
   "status": "proved",
   "theorems": [
    "state_describes",
    "error_is_optimality",
    "update_counts",
    "frozen_forever"
   ],
   "note": ""
  },
  {
   "property": "C56",
   "status": "proved",
   "theorems": [
    "inner_tolerance"
   ],
   "note": ""
  },
  {
   "property": "C57",
   "status": "proved",
   "theorems": [
    "tr_construction",
    "warm_start"
   ],
   "note": ""
  },
  {
   "property": "C58",
   "status": "proved",
   "theorems": [
    "without_replacement_batches",
    "without_replacement_rows",
    "batches_reject_mismatch",
    "without_replacement_zero_batch"
   ],
   "note": "Assumes the contract of jax.random.permutation. Non-negative batch sizes."
  },
  {
   "property": "C59",
   "status": "proved",
   "theorems": [
    "with_replacement_batches",
    "with_replacement_rejects",
    "with_replacement_rejects_empty"
   ],
   "note": "Assumes the contract of the sampler inside jax.random.choice."
  },
  {
   "property": "C60",
   "status": "proved",
   "theorems": [
    "iterator_yields_batches",
    "iterator_count",
    "iterator_keys_used_once",
    "iterator_propagates_errors"
   ],
   "note": ""
  },
  {
   "property": "C61",
   "status": "proved",
   "theorems": [
    "samples_are_accepted",
    "sampling_terminates",
    "sampling_keys_distinct"
   ],
   "note": ""
  },
  {
   "property": "C62",
   "status": "partial",
   "theorems": [
    "zero_density_refuted",
    "nan_density_refuted",
    "zero_density_partial"
   ],
   "note": "False: u = 0 accepts a sample of density 0 and a nan density is always accepted. True when the uniform draws are positive and the density is never nan."
  },
  {
   "property": "C63",
   "status": "proved",
   "theorems": [
    "sampling_probability",
    "sampling_proportional",
    "sampling_limit",
    "proposals_covered",
    "sampling_any_proposal",
    "sampling_cdf"
   ],
   "note": "Ideal randomness: independent proposals and uniform numbers in every round."
  },
  {
   "property": "C64",
   "status": "proved",
   "theorems": [
    "impose_dirichlet_arguments",
    "impose_dirichlet_argument",
    "broadcast_shapes",
    "dirichlet_formula",
    "dirichlet_exact",
    "dirichlet_homogeneous",
    "dirichlet_broadcast",
    "impose_forms_agree",
    "argnums_select",
    "argnums_out_of_range"
   ],
   "note": ""
  },
  {
   "property": "C65",
   "status": "proved",
   "theorems": [
    "impose_neumann_arguments",
    "neumann_exact",
    "neumann_homogeneous",
    "neumann_formula"
   ],
   "note": "Free model with results of any shape and a single point argument among any other arguments; directional derivatives are those of the tensor model (jvp along a line)."
  },
  {
   "property": "C66",
   "status": "proved",
   "theorems": [
    "ic_formula",
    "ic_exact_at_t0",
    "ic_convex_combination",
    "ic_tends_to_model"
   ],
   "note": ""
  },
  {
   "property": "C67",
   "status": "proved",
   "theorems": [
    "derivative_names_in_order",
    "derivative_of_position",
    "derivative_of_positions",
    "derivative_order",
    "derivative_of_names",
    "derivative_of_component",
    "derivative_of_components",
    "derivative_of_vector",
    "derivative_forms"
   ],
   "note": "0-d arguments: partial and iterated partial derivatives for any number of arguments and any list of positions or names, independent of the order for smooth functions (permutation theorem). Vector arguments: components through argnums, one or several arguments, negative component and argument numbers included; without argnums all entries of a vector move together, so the result is the sum of its partials."
  },
  {
   "property": "C68",
   "status": "partial",
   "theorems": [
    "unknown_name_raises_partial",
    "selector_mistakes_raise_partial",
    "missed_position_gives_zero",
    "missed_component_gives_zero",
    "keyword_argument_gives_zero",
    "selectors_honoured_refuted"
   ],
   "note": "The full statement is refuted: a negative or out-of-range position, an out-of-range component and a keyword-passed argument silently give a zero derivative, and a bare multi-letter string is taken letter by letter (so derivative(\"xy\") raises although \"xy\" is a parameter). What holds: in-range positions and names (C67) and unknown names, which raise."
  },
  {
   "property": "C69",
   "status": "proved",
   "theorems": [
    "divergence_is_sum_of_partials",
    "divergence_argnum_out_of_range",
    "curl_in_3d",
    "curl_in_2d",
    "curl_other_dimensions",
    "laplace_is_sum_of_second_partials",
    "laplace_of_vector_field",
    "laplace_of_0d_argument",
    "divergence_of_curl_vanishes",
    "curl_of_gradient_vanishes",
    "curl2d_of_gradient_vanishes",
    "laplace_is_divergence_of_gradient",
    "laplace_of_array_point"
   ],
   "note": "1-d points of any size (curl: 2 and 3), 0-d points for laplace, and points with several axes for laplace, which ravels them before it calls the function. The identities need C2 on an open set; the formulas need nothing."
  },
  {
   "property": "C70",
   "status": "proved",
   "theorems": [
    "array_misfit_raises",
    "hvp_is_hessian_times_vector",
    "forward_over_reverse_is_hvp",
    "reverse_over_reverse_is_hvp",
    "hvp_linear",
    "hvp_rejects_other_shapes",
    "value_grad_hvp_four_conventions"
   ],
   "note": "One 1-d primal of any size; C2 on an open set; all four combinations of value_and_grad and has_aux. For value_and_grad=True the user's gradient is assumed to be the gradient. Pytree primals: C111."
  },
  {
   "property": "C71",
   "status": "proved",
   "theorems": [
    "surface_integral_formula",
    "surface_elements_formula",
    "surface_elements_sum",
    "surface_midpoints",
    "surface_rejections",
    "surface_integral_parallelogram"
   ],
   "note": "Grids with two or more non-decreasing points; rules midpoint, trap, simpson and gauss with any exact table; parametrizations that evaluate on an open set around the parameter rectangle."
  },
  {
   "property": "C72",
   "status": "proved",
   "theorems": [
    "single_layer_potential_taylor",
    "single_layer_potential_polynomial",
    "layer_order_rejected"
   ],
   "note": "All orders, not only 0..2; target point not on the surface. Vector and tensor charges included (index rotation: see C83)."
  },
  {
   "property": "C73",
   "status": "proved",
   "theorems": [
    "scalar_charge_formula",
    "vector_charge_formula",
    "scalar_charges_related",
    "vector_charges_related",
    "scalar_charge_rescaled",
    "vector_charge_rescaled",
    "charges_undefined"
   ],
   "note": "The scalar charge in every dimension, the vector charge in three dimensions. Invariance under rescaling is proved for both variants of the charge."
  },
  {
   "property": "C74",
   "status": "proved",
   "theorems": [
    "curl_of_single_layer_potential",
    "curl_of_layer",
    "gradient_of_layer"
   ],
   "note": "Targets in an open set that does not meet the surface."
  },
  {
   "property": "C75",
   "status": "proved",
   "theorems": [
    "make_funs_normalizes",
    "make_funs_agree",
    "make_funs_missing_aux",
    "make_funs_wrong_tuple",
    "make_funs_wrong_aux"
   ],
   "note": ""
  },
  {
   "property": "C76",
   "status": "proved",
   "theorems": [
    "mlp_forward",
    "mlp_initialised",
    "mlp_needs_output_layer",
    "mlp_rejects_other_sizes",
    "mlp_rejects_0d"
   ],
   "note": ""
  },
  {
   "property": "C77",
   "status": "proved",
   "theorems": [
    "scalar_to_quaternion_power"
   ],
   "note": ""
  },
  {
   "property": "C78",
   "status": "proved",
   "theorems": [
    "annulus_transform_uniform",
    "disk_transform_uniform",
    "sphere_transform_uniform",
    "sphere_bnd_transform_uniform"
   ],
   "note": ""
  },
  {
   "property": "C79",
   "status": "proved",
   "theorems": [
    "spline_marsden_identity",
    "spline_linear_precision",
    "spline_basis_continuous",
    "spline_basis_derivative"
   ],
   "note": ""
  },
  {
   "property": "C80",
   "status": "proved",
   "theorems": [
    "steihaug_terminates",
    "steihaug_default_converges",
    "steihaug_longer_steps"
   ],
   "note": ""
  },
  {
   "property": "C81",
   "status": "proved",
   "theorems": [
    "tree_dim_is_common_size",
    "tree_dim_agrees_with_axis_size",
    "tree_dim_rejects",
    "single_dtype"
   ],
   "note": ""
  },
  {
   "property": "C82",
   "status": "partial",
   "theorems": [
    "negative_argnums_partial",
    "negative_argnum_model_partial",
    "last_argnum_model_repeats",
    "negative_argnum_model_refuted"
   ],
   "note": "Holds for argnums_adf, argnums_g, argnums_h, argnums_m0, argnum_t and every argnum_model below -1; refuted for argnum_model = -1 of impose_neumann_bc, where the slices args[:-1] and args[0:] repeat the arguments."
  },
  {
   "property": "C83",
   "status": "partial",
   "theorems": [
    "layer_potential_axes",
    "layer_potential_axes_refuted"
   ],
   "note": "Holds for scalar and vector charges; refuted for a (2,3) matrix charge, whose potential has shape (3,2): swapaxes(-1, 0) in charge_tensor also moves the first axis of the value to the end."
  },
  {
   "property": "C84",
   "status": "proved",
   "theorems": [
    "cayley_defined",
    "cayley_isometry",
    "cayley_axis_angle",
    "cayley_wrong_length"
   ],
   "note": "solve_lu is modelled as exact elimination by Cramer's rule."
  },
  {
   "property": "C85",
   "status": "proved",
   "theorems": [
    "cuboid_support_volume",
    "cuboid_constructor",
    "cuboid_normalize",
    "cuboid_adf_membership"
   ],
   "note": "Grids are one-dimensional by typing. includes, support, transform and transform_bnd only forward to Hypercube (see C23-C33)."
  },
  {
   "property": "C86",
   "status": "proved",
   "theorems": [
    "cuboid_normal",
    "cuboid_normal_batch"
   ],
   "note": "stop_gradient has no effect on values."
  },
  {
   "property": "C87",
   "status": "proved",
   "theorems": [
    "cuboid_faces"
   ],
   "note": "All grids accepted by the constructor."
  },
  {
   "property": "C88",
   "status": "proved",
   "theorems": [
    "box_surface_integral",
    "box_single_layer",
    "box_expansion"
   ],
   "note": "subintervals is a positive int; target off the closed surface. The default tuple is C90."
  },
  {
   "property": "C89",
   "status": "proved",
   "theorems": [
    "stray_field_variants"
   ],
   "note": "phi1 is any potential with partial derivatives at the target; the least squares fit of its weights is C102."
  },
  {
   "property": "C90",
   "status": "partial",
   "theorems": [
    "int_subintervals_partial",
    "default_subintervals_refuted"
   ],
   "note": "Refuted: the default is the tuple (1, 1, 1) and integrate_face computes subintervals + 1, a TypeError. With a positive int it holds."
  },
  {
   "property": "C91",
   "status": "proved",
   "theorems": [
    "first_potential",
    "second_charge"
   ],
   "note": "The weights are a parameter. The expansions of the charge are those with the constant normal of the side, so stop_gradient makes no difference."
  },
  {
   "property": "C92",
   "status": "proved",
   "theorems": [
    "hypercube_support_volume",
    "round_supports"
   ],
   "note": "Radii non-negative. The parallelogram is in C30."
  },
  {
   "property": "C93",
   "status": "proved",
   "theorems": [
    "hypercube_batch",
    "hypercube_boundary_batch",
    "rectangle_boundary_scalars",
    "interval_boundary_batch",
    "round_batch",
    "parallelogram_batch",
    "polyline_batch",
    "parallelogram_boundary_batch",
    "triangle_batch",
    "includes_batch",
    "batch_points_inside",
    "round_constructors",
    "round_wrong_origin"
   ],
   "note": "Array inputs of any leading shape. A 1-d array of samples of the boundary of a rectangle is an array of scalar samples."
  },
  {
   "property": "C94",
   "status": "partial",
   "theorems": [
    "squeeze_row",
    "squeeze_column",
    "circle_boundary_batch_partial",
    "circle_boundary_batch_refuted"
   ],
   "note": "False for arrays with an axis of size 1: squeeze() removes it, so one sample in an array of shape (1,) gives a single point of shape (2,). Proved for all shapes without axes of size 1."
  },
  {
   "property": "C95",
   "status": "proved",
   "theorems": [
    "jacfwd_is_jacobian",
    "jacrev_is_jacobian",
    "jacfwd_of_several_arguments",
    "jacrev_of_several_arguments",
    "jacobian_with_aux",
    "jacobian_modes_agree",
    "jacobian_argnum_out_of_range"
   ],
   "note": "Array outputs (pytrees: C110). Reverse mode is modelled as the gradient of the inner product with each unit array of the output."
  },
  {
   "property": "C96",
   "status": "proved",
   "theorems": [
    "divergence_of_scalar_function",
    "divergence_of_other_dimension",
    "divergence_of_matrix_field",
    "divergence_of_other_ranks"
   ],
   "note": "1-d arguments. Square fields are C69."
  },
  {
   "property": "C97",
   "status": "proved",
   "theorems": [
    "module_laplace",
    "module_divergence",
    "module_curl_in_3d",
    "module_curl_in_2d",
    "module_derivative_of_components",
    "module_derivative_of_positions",
    "module_derivative"
   ],
   "note": "The variables p are one array."
  },
  {
   "property": "C98",
   "status": "partial",
   "theorems": [
    "module_names_partial",
    "module_unknown_names_partial",
    "module_names_refuted"
   ],
   "note": "Refuted: the second and later names are looked up in the signature of the module's own __call__, so ['x','p'] raises while ['p','x'] works, and another parameter name at position 1 selects the variables."
  },
  {
   "property": "C99",
   "status": "proved",
   "theorems": [
    "pytree_roundtrip",
    "pytree_children",
    "pytree_map_elementwise",
    "vmap_of_quaternions_raises"
   ],
   "note": "Dtypes are in C106."
  },
  {
   "property": "C100",
   "status": "proved",
   "theorems": [
    "tr_stops"
   ],
   "note": "Explicit bound on the number of updates. Exact arithmetic; the objective is finite everywhere with a symmetric Hessian whose quadratic form is bounded, and bounded below."
  },
  {
   "property": "C101",
   "status": "proved",
   "theorems": [
    "tr_converges"
   ],
   "note": "Adds the descent inequality of a Lipschitz gradient and a minimal radius below the safe radius; then the tolerance is reached, not only the minimal radius."
  },
  {
   "property": "C102",
   "status": "proved",
   "theorems": [
    "stray_fit",
    "stray_fit_exact",
    "stray_fit_singular"
   ],
   "note": "The SVD is any function that returns a reduced singular value decomposition of the fit matrix. Exact arithmetic; points strictly inside the box."
  },
  {
   "property": "C103",
   "status": "proved",
   "theorems": [
    "stray_field_solver"
   ],
   "note": "Composition of C89, C91 and C102 for targets strictly inside the box."
  },
  {
   "property": "C104",
   "status": "proved",
   "theorems": [
    "quadrature_order",
    "quadrature_converges",
    "quadrature_error_nd",
    "quadrature_order_nd"
   ],
   "note": "Taylor polynomial about the middle of each panel; the integrand has K+1 derivatives on an open interval around the grid."
  },
  {
   "property": "C105",
   "status": "proved",
   "theorems": [
    "odeint_euler_error",
    "odeint_rk4_error",
    "odeint_rk4_second_order_refuted",
    "odeint_rk4_order_four"
   ],
   "note": "Holds with the step times as odeint passes them; the refutation shows that the first order is sharp for rk4 with time dependent right-hand sides (see C42)."
  },
  {
   "property": "C106",
   "status": "partial",
   "theorems": [
    "quaternion_dtypes",
    "integer_quaternions_partial",
    "integer_quaternions_refuted",
    "float_quaternions",
    "quaternion_result_dtypes",
    "rotate2d_integer_angle_refuted",
    "rotate2d_integer_angle_partial",
    "spline_grid_integer_input_refuted",
    "spline_grid_input_partial",
    "simpson_integer_grid_refuted",
    "simpson_integer_grid_partial",
    "odeint_integer_state_refuted",
    "odeint_state_partial"
   ],
   "note": "Refuted: simpson truncates the midpoints of an integer grid, odeint with rk4 raises for an integer initial value, rotate2d truncates its matrix to the dtype of an integer angle and so collapses every point onto the centre for each non-zero integer angle (pi is irrational), a trainable spline grid is truncated to the dtype of an integer input, and exp, log and powers of integer quaternions raise. The remaining operations agree, and float arguments are unaffected."
  },
  {
   "property": "C107",
   "status": "partial",
   "theorems": [
    "average_rounds_refuted",
    "average_rounds_partial",
    "average_rounds_interval_partial"
   ],
   "note": "The average is m divided by the mean of the density under the proposals. It is m only if that mean is 1, e.g. for a normalised density and uniform proposals on a set of volume 1. Ideal randomness as in C63."
  },
  {
   "property": "C108",
   "status": "proved",
   "theorems": [
    "density_above_m_cut_off"
   ],
   "note": "Ideal randomness as in C63."
  },
  {
   "property": "C109",
   "status": "proved",
   "theorems": [
    "surface_integral_order",
    "single_layer_potential_error",
    "box_potential_error"
   ],
   "note": "Exact arithmetic; the integrands are smooth in the parameters on the closed rectangle, targets keep a positive distance to the surface."
  },
  {
   "property": "C110",
   "status": "proved",
   "theorems": [
    "laplace_of_tree",
    "laplace_of_tree_at_0d_point",
    "divergence_of_tree",
    "divergence_of_tree_with_tensor_leaf",
    "divergence_of_several_arguments",
    "curl_of_tree_in_3d",
    "curl_of_tree_in_2d",
    "curl_of_tree_with_wrong_leaf",
    "curl_of_tree_with_scalar_leaf"
   ],
   "note": "A pytree is its treedef and the list of its leaves. Argument numbers that name an argument twice are not modelled."
  },
  {
   "property": "C111",
   "status": "proved",
   "theorems": [
    "hvp_of_trees",
    "forward_over_reverse_of_trees",
    "reverse_over_reverse_of_tree",
    "value_grad_hvp_of_tree",
    "hvp_of_trees_with_other_shapes",
    "objective_does_not_fit_options"
   ],
   "note": "A pytree is the list of its leaves; tree_vdot and tree_add of jaxopt are modelled as sums over the leaves. hvp is stated for scalar functions."
  },
  {
   "property": "C112",
   "status": "proved",
   "theorems": [
    "tr_aux_distinguished",
    "tr_objective_of_function",
    "tr_value_grad_hvp_agrees",
    "tr_of_function_decreases",
    "tr_of_function_converges"
   ],
   "note": "The number of updates is given; the outer loop of jaxopt (stop at error <= tol or maxiter) is a dependency and not modelled. For value_and_grad=True the user's gradient is assumed to be the gradient."
  },
  {
   "property": "C113",
   "status": "partial",
   "theorems": [
    "tr_fd_hvp_error",
    "tr_fd_prediction_error",
    "tr_fd_accepts",
    "tr_fd_decreases_partial",
    "tr_fd_decreases_refuted"
   ],
   "note": "The error bounds and the acceptance rule hold in full. The last sentence is false: the difference quotient is not linear in p, so the predicted reduction can be negative, and then a large increase of the objective counts as a good step and is accepted. It holds if the subproblem solver uses one direction only (one parameter, or maxiter_steihaug <= 1) and M |fd_h| max_tr_radius (1 + max_tr_radius / tol) < 2, or if the quotients are exact (C112)."
  },
  {
   "property": "C114",
   "status": "proved",
   "theorems": [
    "solid_sign_decides_membership",
    "solid_continuous",
    "solid_watertight",
    "ralpha_normalized_system",
    "rp_normalized_system"
   ],
   "note": "By induction on the expression. inside and outside are defined by geometry in S_Solid.v; outside is not the complement of inside, the boundary belongs to neither."
  },
  {
   "property": "C115",
   "status": "proved",
   "theorems": [
    "solid_unit_normal",
    "solid_normal_points_inside",
    "ralpha_normalized_system",
    "rp_normalized_system",
    "stretch_unit_normal_refuted"
   ],
   "note": "By induction on the expression, with the total (Frechet) derivative. stretch_unit_normal_refuted shows why scale_without_normalization is left out."
  },
  {
   "property": "C116",
   "status": "proved",
   "theorems": [
    "pacman_membership",
    "pacman_unit_normal"
   ],
   "note": "The shape is written with coordinates in S_Notebook.v. The half spaces of the mouth are user functions inside the expression language of C114."
  },
  {
   "property": "C117",
   "status": "proved",
   "theorems": [
    "hard_constraint_boundary_value",
    "hard_constraint_normal_derivative",
    "elm_boundary_value"
   ],
   "note": "The ansatz with g is the general form; the notebook uses g = 0."
  },
  {
   "property": "C118",
   "status": "proved",
   "theorems": [
    "elm_poisson_fit",
    "elm_poisson_no_ridge"
   ],
   "note": "svd is any function that meets the contract is_svd for the fit matrix. The code differentiates norm(.) ** 2, which is nan at a centre; the hypothesis that no collocation point is a centre excludes this."
  },
  {
   "property": "C119",
   "status": "proved",
   "theorems": [
    "jacobians_of_tree",
    "jacobians_of_tree_for_several_arguments",
    "derivative_of_tree_at_positions",
    "derivative_of_tree_by_names",
    "derivative_of_tree_components",
    "derivative_of_tree_called_directly"
   ],
   "note": "A pytree is its treedef and the list of its leaves. Reverse mode is one gradient of the inner product with each element of the standard basis of all leaves. Pytree arguments of Jacobians are not modelled."
  },
  {
   "property": "C120",
   "status": "partial",
   "theorems": [
    "rounded_r0_never_wrong_partial",
    "rounded_r0_accuracy",
    "rounded_r0_strict_sign_refuted"
   ],
   "note": "A positive value is only returned at points of the set, a negative one only at other points; but the value can be 0 at points strictly inside or outside, in every precision (refuted). Each operation is rounded once, no fused multiply-add."
  },
  {
   "property": "C121",
   "status": "partial",
   "theorems": [
    "float32_r0_conjunction_partial",
    "float32_r0_disjunction_partial",
    "float32_r0_underflow_refuted",
    "float32_r0_overflow_refuted",
    "float32_r1_nan_refuted",
    "float32_r1_accuracy_refuted"
   ],
   "note": "r0 is proved for numbers that are 0 or have a magnitude from 2^-63 to 2^63. Below, a conjunction with a negative operand can be positive; above, it is -inf for positive operands. r1, documented as min and max, is nan for some close positive numbers and has an error of 2^-12 for others. IEEE 754 arithmetic is the one of Flocq."
  },
  {
   "property": "C122",
   "status": "partial",
   "theorems": [
    "tr_run_number_of_updates",
    "tr_run_decreases",
    "tr_run_reaches_tolerance_partial",
    "tr_run_tolerance_refuted"
   ],
   "note": "The tolerance is reached if maxiter is above an explicit bound, for functions that are bounded below with bounded second derivatives; for the identity of a scalar it is not reached with any maxiter (refuted). The loop is jaxopt's IterativeSolver.run as we read it, whose source is not in the repository."
  },
  {
   "property": "C123",
   "status": "proved",
   "theorems": [
    "axis_size_of_any_axis",
    "axis_size_errors",
    "axis_size_axis_0"
   ],
   "note": ""
  },
  {
   "property": "C124",
   "status": "partial",
   "theorems": [
    "magnetization_is_unit",
    "initial_magnetization",
    "vortex_partial",
    "vortex_axis_refuted"
   ],
   "note": "m_vortex divides by 0 on the axis x = z = 0 (refuted); everywhere else it is the unit vector of its formula. The network is an arbitrary function with results of length 3."
  },
  {
   "property": "C125",
   "status": "proved",
   "theorems": [
    "hysteresis_energies",
    "hysteresis_energy_bounds",
    "mumag_energies",
    "mumag_energy_bounds"
   ],
   "note": "The stray field solver is an arbitrary function with results of length 3."
  },
  {
   "property": "C126",
   "status": "partial",
   "theorems": [
    "hysteresis_gradient_partial",
    "hysteresis_tr_stuck_refuted"
   ],
   "note": "For reciprocal solvers the gradient is that of e_tot, but not that of the value of the loss, which TR compares. With the local demagnetizing field of a thin film as solver, TR rejects every step although the gradient norm is far above tol and the steps lower e_tot (refuted). This solver is not the one of the notebook, which is only an arbitrary function here."
  },
  {
   "property": "C127",
   "status": "proved",
   "theorems": [
    "solid_neumann",
    "solid_neumann_homogeneous",
    "solid_dirichlet",
    "solid_continuously_differentiable",
    "ralpha_smooth_system",
    "rp_smooth_system"
   ],
   "note": "Smooth boundary points are those of C115 (smooth) that no kink of a part passes through (kink_free); solids with an ellipsoid or RAlpha(1) are left out of the Neumann theorems, not of the Dirichlet theorem. The free model must be continuously differentiable and the data continuous at the point."
  },
  {
   "property": "C128",
   "status": "proved",
   "theorems": [
    "radius_rule",
    "steihaug_limit_step"
   ],
   "note": "The ratio and the step length are those stored in the new state."
  },
  {
   "property": "C129",
   "status": "partial",
   "theorems": [
    "one_row_batch",
    "one_row_cylinder_refuted",
    "rotation_rejects_batch",
    "batch_of_boxes",
    "batch_positive_all_inside_partial",
    "batch_positive_all_inside_refuted",
    "batch_complement_refuted",
    "batch_reflection_shape_error",
    "batch_reflection_refuted",
    "batch_scale_vector_raises"
   ],
   "note": "That the sign tells whether all points are inside is proved for boxes and refuted for spheres, complements and reflections; norm of a 2-d array runs over all entries. User functions are assumed to return one number."
  },
  {
   "property": "C130",
   "status": "proved",
   "theorems": [
    "disk_quadrature_error",
    "sphere_quadrature_error",
    "disk_quadrature_converges",
    "sphere_quadrature_converges"
   ],
   "note": "The integral is the iterated Riemann integral with the factors rho and rho^2 sin(phi); that it equals the area or volume integral (change of variables) is not proved."
  },
  {
   "property": "C131",
   "status": "proved",
   "theorems": [
    "float32_box_sample",
    "float32_box_accuracy",
    "float32_samples_included",
    "float32_includes",
    "float32_box_sample_one_refuted",
    "float32_box_overflow_refuted"
   ],
   "note": "The documented range includes the sample 1, and the code accepts edge lengths that overflow; for both the box is left, with witnesses. Operations are not fused and subnormal numbers are not flushed to 0; samples of other shapes are left out."
  },
  {
   "property": "C132",
   "status": "partial",
   "theorems": [
    "rounded_cuboid_never_wrong",
    "rounded_shifted_cuboid_never_wrong",
    "rounded_boxes_never_wrong",
    "rounded_sphere_sign_partial",
    "rounded_sphere_defined",
    "float32_sphere_sign_refuted"
   ],
   "note": "The sign of the ball is proved up to a margin and refuted without it. The exponent range is unbounded in the proved statements; operations are not fused; the radius is a number of the dtype of the points."
  },
  {
   "property": "C133",
   "status": "proved",
   "theorems": [
    "spline_derivatives_defined",
    "spline_derivatives_from_right",
    "spline_derivatives_exact",
    "spline_derivatives_above_degree",
    "spline_directional_derivative",
    "spline_reverse_transpose",
    "spline_reverse_input",
    "spline_reverse_shape",
    "spline_make_grid_separated",
    "spline_reverse_repeated_nodes",
    "spline_reverse_any_grid_refuted"
   ],
   "note": "Forward and reverse rules of add, sub, mul, div and where are modelled as jax defines them; the last theorem records that reverse mode does not agree with forward mode on every sorted grid."
  },
  {
   "property": "C134",
   "status": "proved",
   "theorems": [
    "adf_derivative_sound",
    "r_function_derivatives_sound",
    "r_function_derivatives_finite",
    "adf_jvp",
    "adf_jacfwd",
    "ellipsoid_derivative",
    "sphere_gradient_refuted",
    "cylinder_gradient_refuted",
    "r1_gradient_refuted"
   ],
   "note": "The forward rules of the jax primitives used by r_fun are modelled as jax defines them; the last three theorems record where the derivative is not finite although the ADF is differentiable."
  },
  {
   "property": "C135",
   "status": "partial",
   "theorems": [
    "integrate_arguments",
    "disk_arguments_partial",
    "sphere_arguments_partial",
    "limits_given_twice",
    "keyword_arguments_refuted",
    "positional_arguments_refuted"
   ],
   "note": "Holds for integrate. For the disk and the sphere the first positional arguments are the limits, and keywords named u, t or domain always raise, because they collide with parameters of inner functions. Limits that are arrays are not modelled."
  },
  {
   "property": "C136",
   "status": "proved",
   "theorems": [
    "odeint_jvp_sound",
    "odeint_method_sound",
    "odeint_jvp_exists",
    "odeint_vjp_sound",
    "odeint_gradient",
    "odeint_method_gradient",
    "odeint_vjp_times_sound",
    "odeint_times_gradient",
    "odeint_args_gradient"
   ],
   "note": "The derivative of the dynamics is a parameter. Reverse mode is proved jointly for the initial value and the times, and for the initial value and the additional arguments."
  }
 ]
}
