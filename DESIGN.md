# MagPI in Rocq: design

Everything below is about the model in `rocq/theories/`. The code in /repo is read as
text and never run; the tie between code and model is the file/line citation on every
definition.

## 1. How the code is modelled

* **Numbers.** jax arrays hold floats. The model uses the exact real numbers of Coq's
  standard library: no rounding, no overflow (M_Float, M_FloatBox and M_FloatAdf have both; C120, C121, C131, C132). Special float values are modelled where
  the code can produce or branch on them:
  * `res A := Ok a | Err e` - a Python exception (`AssertionError`, `ValueError`,
    `TypeError` for shape mismatches, `IndexError`, `ZeroDivisionError`) or the pseudo
    error `NonFinite` (the float result would be nan or +-inf and nothing branches on
    it afterwards);
  * `xr := Fin r | PInf | NInf | NaN` with IEEE rules for the special values, where
    the code does branch on them (trust region ratio, rejection sampling, ...).
* **Arrays.** Shape `()` and `(n,)` arrays are `arr := A0 r | A1 l` with numpy
  broadcasting (r_fun.py); elsewhere 1-d arrays are `list R`, 2-d arrays
  `list (list R)`. Batched `...` axes are modelled where the code treats the batch as a
  whole (normal_vec, batches, integrate).
* **Pytrees** with a fixed tree structure are the list of their leaves (that is what
  `tree_map` works on): `list (list R)`.
* **Automatic differentiation** (`jvp`, `jacfwd`, `grad`, `linearize`) is modelled as
  the mathematical derivative (Coquelicot's `Derive`/`is_derive`). For differentiable
  functions that is what AD computes.
* **Random numbers.** Keys are terms of the free splitting tree (a path of naturals);
  `uniform`, `permutation`, `choice`, user samplers are arbitrary functions of the key
  (universally quantified), with the documented range/permutation contracts as
  hypotheses.
* **Loops.** Python loops are folds; `lax.while_loop` / `loop.while_loop` are recursion
  on explicit fuel, the out-of-fuel case is visible in the result.
* **Transformations** `jit`, `vmap`, `checkpoint`, `lax.cond`, `lax.scan` are modelled
  by their documented semantics (identity, map, identity, if, fold).

## 2. File layout (`rocq/theories`)

`Base.v` shared vocabulary; for each module X: `M_X.v` the model (definitions only,
citing /repo), `S_X.v` the independent specification (if more than stdlib notions are
needed), `P_X.v` proofs, `T_X.v` the property theorems only, each closed by `exact`
with `Print Assumptions` and a non-vacuity `Example`.

## 3. Properties and plan

| id | modelled | proof |
|----|----------|-------|
| C01-C05 | RFun systems over R, constructor checks | sign analysis by cases, nra; derivatives with Coquelicot; C05 refuted by witness p=-2, p=0 |
| C06,C14 | compose/cuboid over `arr` with broadcasting | induction over the operand list |
| C07 | sphere, cylinder, ellipsoid (with its normalization step) | algebra, gradient by Coquelicot |
| C08-C13,C15 | ADF transformers as functions `arr -> res R` | pointwise equations; C09 refuted (rotates the other way) |
| C16-C22 | quaternion class on `R * (R*R*R)` | ring/field identities, trigonometry, induction over the exponent; C17, C22 refuted |
| C23-C33 | domain.py transforms | real arithmetic, induction over lists; C25, C28, C29, C31, C32 refuted |
| C34-C39 | quadrature rules as list functions | induction over the grid; `RInt` as specification |
| C40-C43 | odeint as a scan over ts | induction; C42 refuted (stage times are shifted by one step) |
| C44-C48 | Cox-de Boor recursion and SplineActivation | induction over the degree; C47 refuted |
| C49-C57 | steihaug and TR.update over pytrees | loop invariants; C54 refuted (nan ratio keeps the radius) |
| C58-C63 | batching, iterator, rejection loop | list/permutation reasoning, symbolic keys; C62 refuted |
| C64-C66,C76 | model.py combinators | derivative calculus, structural induction |
| C67-C70 | calc.py dispatch and operators | Schwarz theorem from Coquelicot; C68 refuted |
| C71-C74 | surface_integral.py tensors | finite sums |
| C75,C81 | utils.make_funs_with_aux, tree_dim, tree_single_dtype | case analysis |
| C77 | scalar to quaternion power | modulus of the exponential |
| C78 | Jacobians of the domain transforms | Coquelicot derivatives, determinant algebra |
| C79 | spline basis | Marsden's identity by induction over the degree; derivative of the recursion |
| C80 | steihaug | residuals stay orthogonal, directions conjugate; at most dim-many orthogonal nonzero vectors (Bessel's inequality) |
| C92 | support() of the domains | iterated integrals, substitution rule |
| C93,C94 | domain.py on arrays of samples of any shape (M_Batch) | broadcasting lemmas, row by row; C94 refuted (squeeze) |
| C95-C98 | calc.py: Jacobians in both modes, divergence of other shapes, flax modules as operands (M_Jac) | unit arrays move one coordinate; sums against unit arrays; induction over the selectors; C98 refuted |
| C99 | Quaternion.tree_flatten, tree_unflatten, vmap of quaternions | case analysis |
| C100,C101 | TR.update repeated | Cauchy decrease of steihaug; a potential (objective gap and log of the radius) that every update lowers by one; safe radius from the descent inequality |
| C82,C83 | negative argument numbers; axes of charges | both refuted, with partial theorems |
| C102-C103 | examples/mumag3.py: the fit by singular values and the whole stray field solver (M_Stray) | linear algebra over finite sums for any decomposition satisfying its contract; second derivatives of the ansatz are linear in the weights |
| C104-C105 | integrate.py and ode.py (M_Integrate, M_Ode): convergence | Taylor polynomial per panel and induction over grids and dimensions; discrete Gronwall induction over the scan; order four of rk4 by expanding its stages and the solution in elementary differentials with uniform O(h^k) remainders |
| C106 | integer dtypes of quaternions, rotate2d, trainable spline grids, simpson and odeint (M_Dtype) | two dtypes with promotion and truncating casts; case analysis; partial: five refutations |
| C107-C108 | number of rounds and clipped densities of rejection sampling | proposal distribution given by the laws of its mean value; first-step analysis of the loop; C107 partial: the docstring's m holds only if the density has mean 1 under the proposals |
| C109 | errors of surface integrals and potentials (M_Surface, M_Mumag) | integrals split into cells; Taylor remainder along segments in convex domains; order of the product rules by induction over the dimensions, using linearity of the iterated integral |
| C110 | operators of calc.py on pytree results (M_CalcTree) | a leaf of the result is an array function; the array lemmas are applied leaf by leaf, structure preserved by construction of tree_map |
| C111 | Hessian vector products of several pytrees (M_HvpTree) | all entries of all trees as one list of reals; moving one entry of one leaf moves one coordinate; chain rule along lines in open sets |
| C112 | the objective TR builds from the user's function of a pytree (M_TrFun), updates of M_Tr | value, gradient and HVP of the objective from the pytree theorems of C111; symmetry by Schwarz; descent inequality by the mean value theorem along segments; then the invariants of C100 and C101 |
| C113 | updates of M_Tr with approx_hvp on the objective of M_TrFun | mean value bound of the gradient along a segment for the error; the first step of the subproblem solver has tau k <= g.g, which with the error bound makes the predicted reduction positive; a quartic as witness of an accepted step that increases the objective |
| C114 | M_Solid: syntax of expressions that nest the functions of r_fun.py, and the function `build` that runs them with the models of M_RFun | induction on the expression; sign of each R-system operation; Lipschitz bound of each point map; intermediate value theorem along the path |
| C115 | as C114 | induction on the expression; gradients of the primitives; conjunction with a positive value and disjunction with a negative value keep a zero and its gradient to first order; isometries keep the length of the gradient |
| C116 | M_Notebook: pacman as a program of M_Solid, with the half spaces of the mouth as user functions | C114 and C115; membership and smooth points worked out in coordinates |
| C117 | M_Notebook: `hard_constraint`, the hidden layer and the model of elm_poisson.ipynb | value and gradient of a product where one factor is 0; C114, C115 |
| C118 | M_Notebook: `poisson_fit` with laplace of M_Calc and vmap of M_Surface; svd by contract | completing the square in the coordinates of the singular vectors; laplace is linear on twice differentiable functions |
| C119 | Jacobians and derivatives of calc.py on pytree results (M_CalcTree2) | the standard basis picks one entry of one leaf; derivative commutes with taking one entry of one leaf, so C67 applies to each entry |
| C120 | RAlpha with every operation rounded to nearest in a format with unbounded exponent (M_Float: `rounded_conj`, `compose`) | relative error bounds; sqrt(a*a) rounds back to a; a small operand is absorbed, a large one makes the triangle inequality strict enough; then induction on the nesting |
| C121 | RAlpha with the binary32 operations of Flocq (M_Float: `conj32`, `disj32`) | for moderate numbers every operation agrees with the one of C120 and does not overflow; witnesses by computation |
| C122 | the outer loop of jaxopt around TR.update (M_TrRun: `run`) | induction on the loop: a run is a number of updates, then the decrease and convergence theorems of C112 |
| C123 | opt.check_axis_size, axis_size on the shapes of the leaves (M_OptAxis) | induction on the leaves, case analysis on the sign of the axis |
| C124 | `mag` and the initial magnetizations of hysteresis.ipynb and mumag3.ipynb (M_Energy) | the Cayley rotation keeps lengths (C91), algebra |
| C125 | the energies and losses of both notebooks (M_Energy) | the energies are finite means; Cauchy-Schwarz at each point |
| C126 | the loss of hysteresis.ipynb as an objective of TR, derivatives under `stop_gradient` are those of the first of two arguments (M_Energy: `stop_objective`) | derivative of a symmetric function along the diagonal; refuted by a run that never accepts a step, induction on the run |
| C127 | the composition of M_Solid and M_Model: `on_arrays` passes the distance function of a program as `adf` (M_SolidBC) | induction on the program: continuously differentiable near points without kinks; then the unit gradient of C115 meets the hypotheses of C65 |
| C128 | M_Tr: `update`, `update_tr_radius`, `steihaug` | case analysis of one update; the step stays in the region (C49) |
| C129 | M_RBatch: the functions of r_fun.py with arguments of shape (N, n); `bbuild` runs a program of M_Solid with them | induction on the program; broadcasting over the rows; sign of the reduction over all entries; counterexamples for spheres, cylinders, complements and reflections |
| C130 | M_Integrate: `integrate_disk`, `integrate_sphere` with the quadrature rules and linspace grids | the transformed integrand is Lipschitz on the parameter box (product rule, sin and cos are 1-Lipschitz), then the error bound of C104 |
| C131 | transform_hypercube and includes with the binary32 operations of Flocq (M_FloatBox) | either the edge length is rounded down, or the product with a sample below 1 rounds to at most its predecessor; rounding is monotone and keeps the corners; the remainder of a sample above 1 is exact |
| C132 | cuboid, translate and sphere with every operation rounded to nearest (M_FloatAdf); the sum in `norm` is a relation that allows every order | rounding is monotone, keeps 0 and the corners, hence the sign of every face; C120 for the reduction; relative error of a sum tree by induction; witnesses by computation |
| C133 | M_SplineAD: `_base_fun` on nested (value, tangent) pairs, and its backward pass with cotangents that can be non-finite | the pairs form a ring, so the result is the active polynomial evaluated on pairs; the active polynomial is constant to the right; backward pass by induction over the degree |
| C134 | M_RDual: the functions of r_fun.py on (value, tangent) pairs | a pair is correct for a curve if it holds value and derivative at 0; every rule preserves this, so do all programs by induction; finiteness by a second induction over programs without kinks at the point |
| C135 | M_IntArgs: python's binding of positional and keyword arguments for the three functions and for their inner functions | induction on the list of parameters; calls equal the calls of M_Integrate with the arguments filled in; refuted for the disk and the sphere |
| C136 | M_OdeAD, M_OdeADt, M_OdeADp: odeint, rk4 and explicit_euler on pairs of values and derivatives; transposed steps and reversed scan for vjp. Derivatives of the dynamics are parameters | sums and products of dual numbers are derivatives along curves; induction over the times; the transposed step is shown equal in the inner product, then induction over the reversed scan |
| C84-C91 | examples/mumag3.py: Cuboid, faces, Taylor charges, potentials, stray field, Cayley rotation | algebra; finite sums; derivative of the quadrature; C90 refuted |

## 4. Trusted base

* Coq 8.16.1's kernel (and `coqchk`, run with `-norec` over all 250 files; the installed libraries are not rechecked).
* The standard library axioms listed per theorem in section 5. No axiom of our own, no
  axiom of another library; `tools/assumptions.py` regenerates the list.
* Our reading of the code (the citations) and of the documented semantics of numpy, jax,
  jaxopt and flax primitives: broadcasting, indexing, `jnp.where`, `jvp`/`vjp`/`jacfwd`
  as mathematical derivatives, `vmap` as map, `scan`/`while_loop` as recursion,
  `random.split` as free terms.

### What is modelled, file by file

| file | modelled | not modelled |
|------|----------|--------------|
| r_fun.py (M_RFun, M_Solid, M_RBatch, M_RDual, M_Float, M_FloatAdf) | every R-system, ADF combinator, primitive and constructor check, on points of shape `()`, `(n,)` with broadcasting, and `(N, n)` (M_RBatch); expressions that nest them (M_Solid), with 1-d array shifts, origins and normals; forward-mode derivatives of these expressions (M_RDual) | reverse-mode derivatives; arrays of points of rank 3 or more; float rounding, except of RAlpha, cuboid, translate and sphere (M_Float, M_FloatAdf; no fused multiply-add, subnormal numbers are not flushed to 0). `ellipsoid` differentiates its own implicit function by AD: the model uses the forward-mode rules of `norm` and of the operations around it, including nan at the origin |
| quaternions.py (M_Quat) | the whole class, helpers, pytree registration, exp, log, powers, rotations, reflection, scalar operands; dtypes in M_Dtype | printing; array-valued (batched) components |
| domain.py (M_Domain, M_Batch, M_FloatBox) | all classes and boundary maps; single points in M_Domain, arrays of any shape in M_Batch, with nan entries as `Err NonFinite` | the `Domain` protocol (no code); integer dtypes; float rounding, except of Hypercube.transform and includes (M_FloatBox) |
| integrate.py (M_Integrate, M_IntArgs) | additional arguments; all rules, `integrate` in 1-d and n-d, disk, sphere, Gauss rules for any reference nodes and weights | computation of the Gauss nodes by numpy; limits that are arrays; `Integrand` protocol |
| ode.py (M_Ode, M_OdeAD, M_OdeADt, M_OdeADp) | rk4, explicit Euler, odeint on pytrees | checkpoint (identity), unroll (no effect on values); with a single time the step is still traced by scan, errors raised in that trace |
| spline.py (M_Spline, M_SplineAD) | `_base_fun`, basis, grid, SplineActivation; forward and reverse derivatives of basis | the random initial coefficients (arbitrary); dtypes other than that of the trainable grid (M_Dtype) |
| tr.py (M_XR, M_Tr, M_TrFun, M_TrRun) | steihaug, update_tr_radius, TR.update/init_state/optimality_fun/__post_init__, the objective built from a function of a pytree of arrays, finite difference and exact HVP, damping, inf and nan | negative zero; pytree structure mismatches; verbose printing; the outer `run` loop is part of jaxopt, M_TrRun models it as we know it |
| opt.py (M_Key, M_Opt, M_OptAxis) | batching with and without replacement, the iterator, keys, axis_size along any axis | |
| sampling.py (M_Sampling) | the rejection loop, keys, nan and infinite densities | none known |
| model.py (M_Model) | all combinators, mlp, argnum handling | random initialisation (arbitrary values); flax's parameter dictionary is a list |
| calc.py (M_Tensor, M_Calc, M_Jac, M_CalcTree, M_CalcTree2, M_HvpTree) | every operator for array functions of arrays, flax modules as operands, forward and reverse Jacobians, HVPs (forward-over-reverse, reverse-over-reverse), pytree outputs of every operator, several argument numbers, HVPs of several pytrees | pytree arguments of Jacobians, integer inputs, the same argument number twice |
| surface_integral.py (M_Surface) | everything: surface elements, charges, potentials, Taylor tensors | empty grids; cross products of 2-vectors |
| utils.py (M_Utils) | everything | - |
| prelude.py | re-exports; the used tree functions are in M_Tree, M_XR | - |
| examples/mumag3.py (M_Mumag, M_Stray) | everything; the SVD is an arbitrary decomposition satisfying its contract | `stop_gradient` (values only); points of rank 2 or more where the code handles one point |
| examples/hysteresis.ipynb (M_Energy) | m0, mag, the energies, the loss, TR on the loss | the network (arbitrary), the loop over the field, plotting; it imports `gauss5`, which magpi.integrate does not define |
| examples/mumag3.ipynb (M_Energy) | m_vortex, m_flower, mag, the energies, the loss | the network (arbitrary), training with optax, plotting |
| examples/pacman.ipynb (M_Notebook) | the solid, for any R-system | plotting |
| examples/elm_poisson.ipynb (M_Notebook) | hidden layer, model, fit | the Sobol points (arbitrary), the error integral, plotting |

Other notebooks, tests, jit tracing restrictions, device placement and performance are outside
the model.

### Refuted statements

Where the full statement of a property is false for the code, the theorem `..._refuted`
gives the witness and the `_partial` theorems say what does hold; the claim is marked
`partial` in MANIFEST.json. No property is marked `not_applicable`.

## 5. Print Assumptions per theorem

Generated by `tools/assumptions.py`. All axioms are from Coq's standard library:

* **R1** `ClassicalDedekindReals.sig_not_dec`
* **R2** `ClassicalDedekindReals.sig_forall_dec`
* **FE** `FunctionalExtensionality.functional_extensionality_dep`
* **CL** `Classical_Prop.classic`

### no axioms (closed under the global context)

* `T_Args`: broadcast_shapes
* `T_Batch`: round_constructors
* `T_Dtype`: quaternion_dtypes
* `T_Model`: argnums_out_of_range, mlp_initialised, mlp_needs_output_layer, negative_argnums_partial
* `T_Ode`: odeint_empty_ts
* `T_Opt`: without_replacement_batches, without_replacement_rows, batches_reject_mismatch, without_replacement_zero_batch, with_replacement_batches, with_replacement_rejects, with_replacement_rejects_empty, iterator_yields_batches, iterator_count, iterator_keys_used_once, iterator_propagates_errors
* `T_OptAxis`: axis_size_of_any_axis, axis_size_errors, axis_size_axis_0
* `T_Quat`: quaternion_constructor, pytree_roundtrip, pytree_children, pytree_map_elementwise, vmap_of_quaternions_raises
* `T_RFun`: compose_is_left_fold, compose_errors
* `T_Rest`: squeeze_row, squeeze_column
* `T_Sampling`: sampling_keys_distinct, nan_density_refuted
* `T_Utils`: tree_dim_is_common_size, tree_dim_agrees_with_axis_size, tree_dim_rejects, single_dtype

### R2

* `T_Args`: impose_dirichlet_arguments, impose_dirichlet_argument
* `T_Model`: dirichlet_formula, dirichlet_broadcast, argnums_select
* `T_Ode`: odeint_output_structure, odeint_causal, odeint_restarts, odeint_euler_autonomous

### R2, FE

* `T_Args`: cuboid_support_volume
* `T_Batch`: hypercube_batch, hypercube_boundary_batch, rectangle_boundary_scalars, interval_boundary_batch, parallelogram_batch, triangle_batch
* `T_Domain`: hypercube_transform_in_box, hypercube_transform_onto, hypercube_transform_one_to_one, hypercube_transform_affine, hypercube_transform_wraps, hypercube_transform_negative, hypercube_rejects, hypercube_bnd_on_boundary, hypercube_bnd_face_intervals, hypercube_bnd_onto, hypercube_bnd_interval, hypercube_bnd_rejects, affine_plane_interpolates, affine_plane_is_unique, parallelogram_transform, parallelogram_constructor, triangle_partial, triangle_refuted, triangle_3d_refuted
* `T_Dtype`: simpson_integer_grid_partial, odeint_integer_state_refuted, odeint_state_partial
* `T_Energy`: magnetization_is_unit
* `T_IntArgs`: integrate_arguments
* `T_Integrate`: quadrature_weights, integrate_1d_scalar_result, integrate_is_iterated, integrate_vector_is_iterated, integrate_1d_is_sum, integrate_linear, integrate_product, quadrature_additive
* `T_Model`: dirichlet_exact, dirichlet_homogeneous
* `T_Mumag`: cayley_defined, cayley_isometry, cayley_wrong_length, cuboid_constructor, cuboid_normalize, cuboid_faces
* `T_Notebook`: elm_poisson_no_ridge
* `T_Ode`: odeint_structure_mismatch, rk4_amplification, euler_amplification, constant_rhs_exact, equilibria_fixed, odeint_rk4_autonomous, odeint_rk4_stable, odeint_euler_stable
* `T_Quat`: componentwise_operations, quaternion_hamilton_table, quaternion_equality, zero_quaternion_neutral, scalar_left_operand_partial, scalar_minus_quaternion_refuted
* `T_RBatch`: batch_scale_vector_raises
* `T_RFun`: set_operations_signs, cuboid_wrong_dimension, translate_moves_set, translations_add, scale_moves_set, scale_keeps_sign, scale_without_normalization_moves_set, scale_rejects_vectors, compose_conjunction_signs, compose_disjunction_signs
* `T_Sampling`: samples_are_accepted, sampling_terminates, zero_density_refuted, zero_density_partial
* `T_Spline`: spline_basis_defined, spline_basis_support, spline_basis_positive, spline_basis_local, spline_partition_of_unity, spline_sum_at_most_one, spline_zero_outside, spline_marsden_identity, spline_linear_precision
* `T_SplineAD`: spline_derivatives_defined, spline_derivatives_above_degree, spline_reverse_transpose, spline_reverse_input, spline_reverse_shape, spline_reverse_repeated_nodes, spline_reverse_any_grid_refuted
* `T_Surface`: surface_midpoints
* `T_Tr`: tr_construction

### R1, R2, FE

* `T_Args`: derivative_names_in_order, array_misfit_raises
* `T_Batch`: hypercube_support_volume, polyline_batch, parallelogram_boundary_batch, includes_batch, circle_boundary_batch_partial, circle_boundary_batch_refuted
* `T_Calc`: derivative_of_position, derivative_of_positions, derivative_of_names, derivative_of_component, derivative_of_components, derivative_forms, unknown_name_raises_partial, selector_mistakes_raise_partial, missed_position_gives_zero, missed_component_gives_zero, keyword_argument_gives_zero, selectors_honoured_refuted, divergence_is_sum_of_partials, divergence_argnum_out_of_range, curl_in_3d, curl_in_2d, curl_other_dimensions, laplace_is_sum_of_second_partials, laplace_of_vector_field, laplace_of_0d_argument, laplace_is_divergence_of_gradient, reverse_over_reverse_is_hvp, hvp_rejects_other_shapes
* `T_CalcTree`: laplace_of_tree, laplace_of_tree_at_0d_point, divergence_of_tree, divergence_of_tree_with_tensor_leaf, divergence_of_several_arguments, curl_of_tree_in_3d, curl_of_tree_in_2d, curl_of_tree_with_wrong_leaf, curl_of_tree_with_scalar_leaf
* `T_CalcTree2`: jacobians_of_tree, jacobians_of_tree_for_several_arguments, derivative_of_tree_at_positions, derivative_of_tree_by_names, derivative_of_tree_components, derivative_of_tree_called_directly
* `T_Domain`: hypercube_normal_vec_partial, hypercube_normal_vec_which_face, hypercube_normal_vec_outside, hypercube_normal_vec_refuted, hypercube_normal_vec_batch_partial, hypercube_normal_vec_batch_refuted, annulus_transform_inside, annulus_transform_one_to_one, disk_transform_inside, disk_bnd_on_circle, spherical_normal_vec_on_boundary, spherical_normal_vec_unit, spherical_normal_vec_off_boundary, disk_bnd_one_to_one_partial, disk_bnd_one_to_one_refuted, spherical_normal_vec_batch_partial, spherical_normal_vec_batch_refuted, spherical_normal_vec_batch_columns_refuted, parallelogram_support, parallelogram_support_3d, parallelogram_bnd_partial, parallelogram_bnd_refuted, polyline_is_arc_length, polyline_image, polyline_covers, polyline_degenerate_start, polyline_needs_two_points
* `T_Dtype`: integer_quaternions_partial, rotate2d_integer_angle_partial
* `T_Energy`: initial_magnetization, vortex_axis_refuted, hysteresis_energies, hysteresis_energy_bounds, mumag_energies, mumag_energy_bounds, hysteresis_gradient_partial
* `T_FloatAdf`: rounded_sphere_defined
* `T_HvpTree`: reverse_over_reverse_of_tree, hvp_of_trees_with_other_shapes, objective_does_not_fit_options
* `T_IntArgs`: disk_arguments_partial, sphere_arguments_partial, limits_given_twice, keyword_arguments_refuted, positional_arguments_refuted
* `T_Integrate`: integrate_disk_evaluates_inside, integrate_disk_shift, integrate_disk_formula, integrate_disk_bad_counts, integrate_sphere_formula, integrate_sphere_evaluates_inside, integrate_sphere_shift
* `T_Jac`: laplace_of_array_point, jacfwd_is_jacobian, jacrev_is_jacobian, jacfwd_of_several_arguments, jacrev_of_several_arguments, jacobian_with_aux, jacobian_modes_agree, jacobian_argnum_out_of_range, divergence_of_scalar_function, divergence_of_other_dimension, divergence_of_matrix_field, divergence_of_other_ranks, module_laplace, module_divergence, module_curl_in_3d, module_curl_in_2d, module_derivative_of_components, module_derivative_of_positions, module_derivative, module_names_partial, module_unknown_names_partial
* `T_Model`: impose_forms_agree, ic_formula, ic_exact_at_t0, mlp_forward, mlp_rejects_other_sizes, mlp_rejects_0d, negative_argnum_model_partial, last_argnum_model_repeats, negative_argnum_model_refuted
* `T_Mumag`: cayley_axis_angle, box_surface_integral, box_single_layer, int_subintervals_partial, default_subintervals_refuted
* `T_Notebook`: elm_boundary_value
* `T_OdeAD`: odeint_jvp_sound, odeint_method_sound
* `T_Quat`: quaternion_algebra, quaternion_inverse, quaternion_inverse_of_zero, quaternion_right_division, quaternion_left_division, scalar_right_operand, rotation_is_linear_isometry, rotation_ignores_scaling, rotation_undone_by_reciprocal, rotation_composition, axis_angle_unit, axis_angle_rotation, euler_angles_unit, euler_angles_product, euler_angles_rotation, reflection_is_mirror, abs_of_exp
* `T_RBatch`: one_row_batch, one_row_cylinder_refuted, rotation_rejects_batch, batch_positive_all_inside_refuted, batch_complement_refuted, batch_reflection_shape_error
* `T_RDual`: adf_derivative_sound, sphere_gradient_refuted, cylinder_gradient_refuted, r1_gradient_refuted
* `T_RFun`: ralpha_signs, r1_is_min_max, ralpha_conj_plus_disj, rho_blending_smooths, sphere_membership, cylinder_membership, ellipsoid_membership_partial, ellipsoid_membership_refuted, rotate2d_moves_set, rotations2d_add, rotate3d_moves_set_partial, rotate3d_versus_rotate2d_partial, rotate3d_euler_angles_partial, rotate3d_moves_set_refuted, reflect_moves_set, reflect_involution, reflect_fixes_plane, mirror_is_isometry, reflect_origin_scalar, reflect_needs_normal, project_is_invariant, project_keeps_plane, project_origin_scalar, revolution_around_x, revolution_around_y, revolution_rejects, normalize_sign_and_range, normalize_undefined_point, normalize_is_normalized, rotate3d_validation, rotate_point_dimension_partial, rotate_point_dimension_refuted
* `T_Rest`: tr_aux_distinguished
* `T_Sampling`: sampling_probability, sampling_proportional, sampling_limit
* `T_Sampling2`: proposals_covered, sampling_any_proposal, sampling_cdf, average_rounds_refuted, average_rounds_partial, average_rounds_interval_partial, density_above_m_cut_off
* `T_Solid`: ralpha_normalized_system, stretch_unit_normal_refuted
* `T_SolidBC`: ralpha_smooth_system
* `T_SplineAD`: spline_derivatives_from_right
* `T_Stray`: stray_fit_singular
* `T_Surface`: surface_integral_formula, surface_elements_formula, surface_elements_sum, surface_rejections, single_layer_potential_taylor, layer_order_rejected, scalar_charge_formula, vector_charge_formula, scalar_charges_related, vector_charges_related, scalar_charge_rescaled, vector_charge_rescaled, charges_undefined, curl_of_single_layer_potential, layer_potential_axes, layer_potential_axes_refuted
* `T_Tr`: steihaug_region, steihaug_iterations, steihaug_decrease, warm_start, steihaug_terminates, steihaug_default_converges, steihaug_longer_steps, steihaug_limit_step
* `T_TrFun`: tr_value_grad_hvp_agrees
* `T_Utils`: make_funs_normalizes, make_funs_agree, make_funs_missing_aux, make_funs_wrong_tuple, make_funs_wrong_aux

### R2, FE, CL

* `T_RFun`: cuboid_at_origin, cuboid_around_origin, cube_membership

### R1, R2, FE, CL

* `T_Args`: impose_neumann_arguments
* `T_Batch`: round_supports, round_batch, batch_points_inside, round_wrong_origin
* `T_Calc`: derivative_order, derivative_of_vector, divergence_of_curl_vanishes, curl_of_gradient_vanishes, curl2d_of_gradient_vanishes, hvp_is_hessian_times_vector, forward_over_reverse_is_hvp, hvp_linear, value_grad_hvp_four_conventions
* `T_Domain`: annulus_transform_onto, sphere_transform_inside, sphere_transform_onto, sphere_bnd_on_sphere, disk_bnd_onto, sphere_bnd_onto_partial, sphere_bnd_onto_refuted, annulus_transform_uniform, disk_transform_uniform, sphere_transform_uniform, sphere_bnd_transform_uniform
* `T_Dtype`: integer_quaternions_refuted, float_quaternions, quaternion_result_dtypes, rotate2d_integer_angle_refuted, spline_grid_integer_input_refuted, spline_grid_input_partial, simpson_integer_grid_refuted
* `T_Energy`: vortex_partial, hysteresis_tr_stuck_refuted
* `T_Float`: rounded_r0_never_wrong_partial, rounded_r0_accuracy, rounded_r0_strict_sign_refuted, float32_r0_conjunction_partial, float32_r0_disjunction_partial, float32_r0_underflow_refuted, float32_r0_overflow_refuted, float32_r1_nan_refuted, float32_r1_accuracy_refuted
* `T_FloatAdf`: rounded_cuboid_never_wrong, rounded_shifted_cuboid_never_wrong, rounded_boxes_never_wrong, rounded_sphere_sign_partial, float32_sphere_sign_refuted
* `T_FloatBox`: float32_box_sample, float32_box_accuracy, float32_samples_included, float32_includes, float32_box_sample_one_refuted, float32_box_overflow_refuted
* `T_HvpTree`: hvp_of_trees, forward_over_reverse_of_trees, value_grad_hvp_of_tree
* `T_IntErr`: quadrature_order, quadrature_converges, quadrature_error_nd
* `T_IntOrder`: quadrature_order_nd
* `T_IntPolar`: disk_quadrature_error, sphere_quadrature_error, disk_quadrature_converges, sphere_quadrature_converges
* `T_Integrate`: quadrature_exact, gauss_composite_exact, integrate_disk_constant, integrate_disk_area, integrate_sphere_volume, quadrature_error
* `T_Jac`: module_names_refuted
* `T_Model`: neumann_exact, neumann_homogeneous, neumann_formula, ic_convex_combination, ic_tends_to_model
* `T_Mumag`: cuboid_adf_membership, cuboid_normal, cuboid_normal_batch, box_expansion, stray_field_variants, first_potential, second_charge
* `T_Notebook`: pacman_membership, pacman_unit_normal, hard_constraint_boundary_value, hard_constraint_normal_derivative, elm_poisson_fit
* `T_Ode`: rk4_exact_for_cubics, odeint_exact_for_cubics_partial, odeint_exact_for_cubics_refuted, rk4_factor_near_exp, odeint_rk4_fourth_order
* `T_Ode4`: odeint_rk4_order_four
* `T_OdeAD`: odeint_jvp_exists, odeint_vjp_sound, odeint_gradient, odeint_method_gradient
* `T_OdeADp`: odeint_args_gradient
* `T_OdeADt`: odeint_vjp_times_sound, odeint_times_gradient
* `T_OdeErr`: odeint_euler_error, odeint_rk4_error, odeint_rk4_second_order_refuted
* `T_Quat`: exp_of_log, log_of_exp, power_is_iterated_product, exp_log_where_partial, exp_log_negative_reals_partial, powers_of_nearly_real_partial, power_of_minus_one_refuted, scalar_to_quaternion_power
* `T_RBatch`: batch_of_boxes, batch_positive_all_inside_partial, batch_reflection_refuted
* `T_RDual`: ellipsoid_derivative, r_function_derivatives_sound, r_function_derivatives_finite, adf_jvp, adf_jacfwd
* `T_RFun`: rp_signs, ralpham_signs, rp2_is_r0, rp_values, rp4_values, rfun_de_morgan, ralpha_normalized, rp_normalized, rp_normalized_to_order, rp_normalized_to_order_disj, rp_constructor_partial, rp_constructor_refuted, rp_zero_raises_refuted, rp_minus_two_refuted, sphere_unit_gradient, scale_keeps_gradient
* `T_Rest`: default_spline_is_activation, infinite_values_rejected
* `T_Solid`: solid_sign_decides_membership, solid_continuous, solid_watertight, rp_normalized_system, solid_unit_normal, solid_normal_points_inside
* `T_SolidBC`: solid_neumann, solid_neumann_homogeneous, solid_dirichlet, solid_continuously_differentiable, rp_smooth_system
* `T_Spline`: make_grid_spec, make_grid_power_law, make_grid_covers_partial, make_grid_covers_refuted, spline_activation_defined, spline_activation_value, spline_activation_outside, spline_activation_outside_own_grid, spline_activation_zero_coefs, spline_activation_bound, spline_activation_bound_own_grid, spline_activation_constant_coefs, spline_activation_default, spline_basis_continuous, spline_basis_derivative
* `T_SplineAD`: spline_derivatives_exact, spline_directional_derivative, spline_make_grid_separated
* `T_Stray`: stray_fit, stray_fit_exact, stray_field_solver
* `T_SurfErr`: surface_integral_order, single_layer_potential_error, box_potential_error
* `T_Surface`: surface_integral_parallelogram, single_layer_potential_polynomial, curl_of_layer, gradient_of_layer
* `T_Tr`: update_improves, run_monotone, converged_stays, radius_in_bounds, runs_succeed, rejection_shrinks, rejections_bound, nan_trial_shrinks_partial, nan_trial_shrinks_refuted, nan_trial_stalls, state_describes, error_is_optimality, update_counts, frozen_forever, inner_tolerance, radius_rule
* `T_Tr2`: tr_stops, tr_converges
* `T_TrFd`: tr_fd_hvp_error, tr_fd_prediction_error, tr_fd_accepts, tr_fd_decreases_partial, tr_fd_decreases_refuted
* `T_TrFun`: tr_objective_of_function, tr_of_function_decreases, tr_of_function_converges
* `T_TrRun`: tr_run_number_of_updates, tr_run_decreases, tr_run_reaches_tolerance_partial, tr_run_tolerance_refuted
