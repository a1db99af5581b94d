import json
P=[]
def p(id,title,statement,quant,why,anchors):
    P.append(dict(id=id,title=title,statement=statement,quantifier=quant,why_tests_cant=why,anchors=anchors))
RF="magpi/r_fun.py"; MU="examples/mumag3.py"; Q="magpi/quaternions.py"; D="magpi/domain.py"; I="magpi/integrate.py"; S="magpi/spline.py"; T="magpi/tr.py"; O="magpi/opt.py"; SA="magpi/sampling.py"; MO="magpi/model.py"; C="magpi/calc.py"; SI="magpi/surface_integral.py"; OD="magpi/ode.py"; U="magpi/utils.py"
p("C01","R-functions decide set membership by sign",
 "For RAlpha(alpha) with any alpha in (-1,1] and for RP(p) with any even p >= 2, the sign (+,0,-) of conjunction(a,b) is the minimum of the signs of a and b, and the sign of disjunction(a,b) is the maximum. For RAlphaM(m, alpha) the same holds for every m whenever (a,b) is not (0,0), and at (0,0) too when m >= 0. Hence union, intersection, difference, implication, equivalence, xor and negate of two ADFs have at every point the sign given by the three-valued logic of the operand signs.",
 "every alpha, p, m accepted, every pair of ADFs and every point",
 "sampling points cannot settle a sign condition over the whole plane and every parameter value",
 [RF+":RFun",RF+":RAlpha",RF+":RAlphaM",RF+":RP"])
p("C02","R-function identities",
 "r1.conjunction/disjunction are exactly min/max; RP(2) and RAlpha(0) compute the same values; RP(p) computes a + b -/+ the p-th root of a^p + b^p for even p >= 2, and rp4 is RP(4); in every system disjunction(a,b) = -conjunction(-a,-b) (De Morgan), conjunction and disjunction are commutative, and conjunction + disjunction of RAlpha is 2(a+b)/(1+alpha).",
 "all reals a, b and all accepted parameters","identities over a continuum of arguments and parameters",[RF+":RAlpha",RF+":RP",RF+":r1",RF+":r0",RF+":rp2",RF+":rp4"])
p("C03","R-functions preserve normalization",
 "At any point where one operand is 0 and the other is positive (negative for disjunction), the partial derivative of RAlpha/RP conjunction (disjunction) with respect to the vanishing operand is 1 and with respect to the other operand is 0. For RP(p) the conjunction deviates from the vanishing operand a only by at most a^p/(p b^(p-1)), i.e. it is normalized to order p-1.",
 "all accepted alpha, all even p >= 2, all boundary values","derivatives at every boundary point and every order p are not reachable by sampling",[RF+":RAlpha",RF+":RP"])
p("C04","Rho blending only smooths",
 "For rho > 0, RhoBlending(rho).conjunction(a,b) <= r0.conjunction(a,b) and disjunction >= r0.disjunction, with equality whenever a^2+b^2 >= rho^2; so a positive conjunction implies both operands positive and a negative disjunction implies both negative; the value is always finite.",
 "all rho > 0 and all a, b","continuum of arguments and smoothing factors",[RF+":RhoBlending"])
p("C05","Every RP accepted by the constructor is an R-function",
 "Every RP(p) that passes the constructor's check `p % 2 == 0` evaluates without error and has sign-correct conjunction/disjunction.",
 "all integers p accepted by the constructor","the constructor accepts infinitely many p; tests use 2 and 4 only",[RF+":RP.__init__"])
p("C06","Cuboid ADF is the membership function of the box",
 "cuboid(edge_lengths, centering, r_system)(x) is > 0 iff x is strictly inside the box in every coordinate, 0 iff x is on the boundary, < 0 iff x is outside, for every dimension and every sign-correct R-system; cube(l) behaves as the box with all edges l in whatever dimension x has.",
 "all dimensions, edge lengths, centering flags, R-systems and points","all dimensions and all points",[RF+":cuboid",RF+":cube",RF+":compose"])
p("C07","Sphere, cylinder, ellipsoid ADFs",
 "For r > 0, sphere(r)(x) has the sign of r - |x| in every dimension, cylinder(r) depends on the first two coordinates only and has the sign of r minus their norm, and ellipsoid(axes) with positive axes is >0, =0, <0 exactly inside, on and outside the ellipsoid sum (x_i/a_i)^2 = 1. The gradient of sphere(r) has norm 1 at every boundary point.",
 "all radii, axes, dimensions and points","continuum of radii, dimensions and points",[RF+":sphere",RF+":cylinder",RF+":ellipsoid"])
p("C08","translate and rotate2d move the described set",
 "translate(adf,y) at x+y equals adf at x; rotate2d(adf,angle,o) evaluated at the point obtained by rotating x counter-clockwise by angle around o equals adf(x); consequently composing translations adds the offsets and composing rotations around the same centre adds the angles.",
 "all ADFs, offsets, angles, centres and points","functional equality over all ADFs and points",[RF+":translate",RF+":rotate2d"])
p("C09","rotate3d rotates the described set",
 "rotate3d(adf, angle, axis, o) with a unit axis describes the set rotated by `angle` around the axis in the same (counter-clockwise, right-hand) direction as rotate2d; rotate3d about the z axis of a set and rotate2d of its cross-section agree.",
 "all ADFs, angles, unit axes, centres and points","direction conventions must agree for every angle",[RF+":rotate3d",Q+":from_axis_angle",Q+":quaternion_rotation"])
p("C10","scale preserves membership and first-order normalization",
 "For s > 0, scale(adf,s) at s*x is s*adf(x), so signs are preserved and the gradient of scale(adf,s) at s*x equals the gradient of adf at x; scale_without_normalization(adf,s) at s*x equals adf(x). Non-scalar factors are rejected by scale.",
 "all ADFs, scaling factors and points","all ADFs and factors",[RF+":scale",RF+":scale_without_normalization"])
p("C11","reflect is an isometric involution of the described set",
 "For a non-zero normal vector (any length) reflect(adf,n,o) at the mirror image of x in the plane through o equals adf(x); reflecting twice gives back the ADF; points of the plane are fixed.",
 "all ADFs, non-zero normals, origins, dimensions and points","all dimensions and ADFs",[RF+":reflect"])
p("C12","project and revolution are invariant along the swept direction",
 "project(adf,n,o) takes the same value at x and x + t n for every t and equals adf on the plane through o; revolution(adf, axis) takes the same value at all points of a circle around the x axis (axis=0) resp. y axis (axis=1), equals the 2d ADF on the half plane, and any other axis raises ValueError.",
 "all ADFs, normals, points, real t and axis values","invariance over a continuum",[RF+":project",RF+":revolution"])
p("C13","normalize_1st_order",
 "Where adf or its gradient is non-zero, normalize_1st_order(adf)(x) is defined, has the sign of adf(x) and lies in [-1,1]; at a boundary point with non-vanishing gradient its derivative in the direction of the unit gradient is 1 (first-order normalized).",
 "all differentiable ADFs and all points","all ADFs",[RF+":normalize_1st_order"])
p("C14","compose is an n-ary reduction of all operands",
 "compose(op)(adf_1,...,adf_n) applied to x left-folds op over the concatenation of all operand values, in order; with a sign-correct conjunction the result is >0 iff every operand value is >0 and <0 iff some operand value is <0. No operand at all is an error.",
 "any number of operands, any values","unbounded number of operands",[RF+":compose"])
p("C15","rotate3d argument validation",
 "rotate3d raises ValueError exactly when a scalar angle comes without axis, or three Euler angles come with an axis, or the angle has any other shape; rotating a point whose dimension is not 3 (2 for rotate2d) is an AssertionError and never a silent wrong value.",
 "all angle shapes and axis options","all argument shapes",[RF+":rotate3d",RF+":rotate2d"])
p("C16","Quaternion algebra laws",
 "Quaternion multiplication is associative, distributes over addition and subtraction, satisfies Hamilton's table i^2=j^2=k^2=ijk=-1, |pq|=|p||q|, conj(pq)=conj(q)conj(p); every non-zero quaternion has reciprocal() as two-sided inverse; right and left division undo right and left multiplication.",
 "all quaternions","algebraic laws over R^4",[Q+":Quaternion",Q+":quaternion_right_div",Q+":quaternion_left_div"])
p("C17","Mixed scalar/quaternion subtraction",
 "Scalar operations commute with swapping sides as arithmetic demands: s + q = q + s, s * q = q * s and s - q = -(q - s).",
 "all scalars and quaternions","operator overloading on the reflected side is not covered by tests",[Q+":Quaternion.__radd__",Q+":Quaternion.__rsub__",Q+":Quaternion.__rmul__"])
p("C18","quaternion_rotation is a rotation",
 "For every non-zero q, x -> quaternion_rotation(x,q) is linear, preserves dot products and cross products (hence lengths, angles and orientation), is unchanged when q is multiplied by a non-zero scalar, is undone by the reciprocal, and rotating by q1 and then q2 is rotating by q1*q2.",
 "all vectors and non-zero quaternions","laws over all vectors and quaternions",[Q+":quaternion_rotation"])
p("C19","Axis-angle and Euler constructors",
 "from_axis_angle(angle, axis) with a unit axis is a unit quaternion and quaternion_rotation by it is Rodrigues' rotation about the axis by -angle; from_euler_angles is always a unit quaternion and is the product of the three elementary rotations about z, y, x.",
 "all angles and axes","trigonometric identity for all angles and axes",[Q+":from_axis_angle",Q+":from_euler_angles"])
p("C20","quaternion_reflection is the mirror map",
 "For every non-zero normal vector, quaternion_reflection(x,n) = x - 2 (x.n)/(n.n) n, for every length of n.",
 "all vectors and non-zero normals","identity over all vectors",[Q+":quaternion_reflection"])
p("C21","Quaternion exp, log and powers",
 "exp(log q) = q for every q whose imaginary part and angle exceed the sgn threshold (the machine epsilon below which sgn treats a vector as 0), log(exp q) = q when |imag| < pi and the imaginary parts of q and exp q exceed the threshold, |exp q| = e^real when the imaginary part is 0 or above the threshold, and q ** n is the n-fold product q*...*q for every natural n.",
 "all such quaternions and all n","unbounded exponent and continuum of quaternions",[Q+":quanternion_exp",Q+":quanternion_log",Q+":Quaternion.__pow__",Q+":sgn",Q+":arg"])
p("C22","exp inverts log on negative reals too",
 "exp(log q) = q for every non-zero quaternion, including the negative reals, and (-1)**1 = -1.",
 "all non-zero quaternions","boundary of the branch cut",[Q+":quanternion_log",Q+":sgn"])
p("C23","Hypercube.transform maps the unit cube onto the box",
 "For lb <= ub every sample in [0,1]^d (and every sample with non-negative coordinates, which are wrapped modulo 1 when above 1) is mapped into the closed box; restricted to [0,1]^d the map is onto, is one-to-one when lb < ub, and is affine in each coordinate, so uniform samples stay uniform; includes() is True for the image.",
 "all dimensions, bounds and samples","all dimensions and points",[D+":Hypercube.transform",D+":transform_hypercube",D+":Hypercube.includes"])
p("C24","Hypercube.transform_bnd samples the boundary proportionally to face area",
 "For every sample the image is on the boundary of the box (in the box with at least one coordinate equal to lb or ub); every boundary point that is not on an upper edge of its face is reached; the set of first coordinates that select face i is an interval of length area_i/total area.",
 "all dimensions >= 2, all lb < ub and all samples","all dimensions and the continuum of samples",[D+":Hypercube.transform_bnd",D+":transform_hypercube_bnd"])
p("C25","Hypercube.normal_vec is the outward unit normal",
 "For every point on the boundary of the hypercube normal_vec returns a unit outward normal of a face containing the point, for points not on the boundary it returns None, and for a batch it does so point by point.",
 "all dimensions, bounds, boundary points and batches","corner and edge configurations grow exponentially with the dimension",[D+":Hypercube.normal_vec"])
p("C26","Disk, Annulus and Sphere transforms land inside and are measure preserving",
 "Disk/Annulus/Sphere.transform(x) lies within the region (distance from origin in [r1,r2), < r) for every sample, Disk/Sphere.includes() of the image is True for r > 0, and the fraction of area (volume) within the radius of the image equals the corresponding sample coordinate, i.e. uniform samples stay uniform.",
 "all radii, origins and samples","continuum of samples",[D+":transform_annulus",D+":transform_circle",D+":transform_sphere",D+":_Spherical.includes"])
p("C27","Sphere and Disk boundary transforms",
 "transform_bnd(x) has distance exactly r from the origin for every sample, every boundary point is reached, and normal_vec of the image is the outward unit normal (image - origin)/r.",
 "all radii, origins and samples","continuum of samples",[D+":transform_sphere_bnd",D+":transform_circle_bnd",D+":_Spherical.normal_vec"])
p("C28","Disk.transform_bnd is one-to-one on [0,1)",
 "Different samples in [0,1) are mapped by Disk.transform_bnd to different boundary points.",
 "all pairs of samples","a test would have to compare pairs half a period apart",[D+":transform_circle_bnd"])
p("C29","Spherical normal_vec works on batches",
 "Sphere/Disk.normal_vec of a batch of k boundary points returns the k outward unit normals for every k.",
 "all batch sizes","all batch sizes",[D+":_Spherical.normal_vec"])
p("C30","Parallelogram.transform, support and affine_plane",
 "affine_plane(a,b,c) returns the unique (B, offset) with B(0,0)+offset=a, B(1,0)+offset=b, B(0,1)+offset=c; Parallelogram.transform(s,t) = a + s(b-a) + t(c-a) on [0,1]^2; support() is the area |(b-a) x (c-a)| (in 3d), in every dimension it squares to the Gram determinant and is real.",
 "all points a,b,c of every dimension","all dimensions",[D+":Parallelogram",D+":affine_plane",D+":linear_map"])
p("C31","Parallelogram.transform_bnd runs along the boundary of the parallelogram",
 "For all a,b,c the image of transform_bnd consists of boundary points of the parallelogram described by transform (corners a, b, b+c-a, c).",
 "all a, b, c and samples","tests only use a = 0",[D+":Parallelogram.transform_bnd"])
p("C32","transform_triangle maps into the triangle",
 "transform_triangle(x,a,b,c) lies in the triangle abc for every sample and every triangle, and covers it.",
 "all triangles and samples","tests only use an axis-aligned triangle",[D+":transform_triangle"])
p("C33","transform_polyline is the arc-length parametrization",
 "For points with no zero-length first segment and every s, transform_polyline(s, points) is defined and is the point on the polyline at arc length (s mod 1)*length from the first point, for any number of points in any dimension.",
 "all polylines and samples","unbounded number of segments",[D+":transform_polyline"])
p("C34","Quadrature rules are exact on polynomials for every grid",
 "For every list of at least two grid points (not necessarily equidistant or increasing) midpoint and trap integrate every polynomial of degree <= 1, and simpson every polynomial of degree <= 3, exactly over [first, last]; weights therefore sum to last - first, there are as many weights as nodes, and for increasing grids all weights are positive and nodes lie in [first,last].",
 "all grids of all lengths, all polynomials of the stated degree","unbounded grids",[I+":midpoint",I+":trap",I+":simpson"])
p("C35","Composite Gauss rule inherits the exactness of the reference rule",
 "If the reference nodes/weights integrate x^k over [-1,1] exactly for k <= K (K = 2*degree-1 for Gauss-Legendre) then gauss(degree) integrates every polynomial of degree <= K exactly over every grid.",
 "all degrees, grids and polynomials","unbounded degree and grids",[I+":gauss"])
p("C36","integrate over a product grid is the iterated quadrature",
 "integrate(f,[d1,...,dk],method) equals the iterated 1d quadrature sums, for every number of dimensions: it is linear in f, and for f(x) = f1(x1)*...*fk(xk) it is the product of the 1d results; the weight of a node is the product of its 1d weights and coordinates are passed in the order of the domain list.",
 "all numbers of dimensions, grids and integrands","unbounded dimension",[I+":integrate"])
p("C37","integrate_disk and integrate_sphere",
 "integrate_disk of a constant c is exactly c * (r^2 - r_inner^2)/2 * (phi2 - phi1) for every n >= 2 (pi r^2 c by default); the integrand is evaluated only at points whose distance from o lies between r_inner and r; shifting o is the same as shifting the integrand. integrate_sphere evaluates only points of the ball and weights them by r^2 sin(phi).",
 "all radii, origins, node numbers and integrands","all n",[I+":integrate_disk",I+":integrate_sphere"])
p("C38","Quadrature is additive over subdivided domains",
 "Splitting the grid at any of its nodes and adding the two integrals gives the integral over the whole grid, for midpoint, trap, simpson and gauss, for every integrand.",
 "all grids, split positions and integrands","unbounded grids",[I+":midpoint",I+":trap",I+":simpson",I+":gauss"])
p("C39","Quadrature error bound",
 "For an increasing grid with largest step h and an integrand with Lipschitz constant L, each rule's result differs from the Riemann integral by at most L*h*(last-first), so the rules converge under refinement.",
 "all grids and Lipschitz integrands","convergence is a statement about infinitely many grids",[I+":midpoint",I+":trap",I+":simpson",I+":integrate"])
p("C40","odeint output structure",
 "odeint returns len(ts) states, the first is the initial value; the state at index i depends only on ts[0..i] (running on a prefix gives the prefix of the result); restarting at any intermediate state and time continues with the same values.",
 "all dynamics, methods, time grids","unbounded number of time steps",[OD+":odeint",OD+":_odeint"])
p("C41","rk4 and explicit_euler steps",
 "One rk4 step is exact when y' = q(t) with q a polynomial of degree <= 3, and multiplies the state of y' = lambda*y by 1+z+z^2/2+z^3/6+z^4/24 (z = lambda dt); explicit_euler multiplies by 1+z; both are exact for constant right-hand sides and leave equilibria unchanged.",
 "all polynomials, lambdas, step sizes, pytrees","continuum of right-hand sides",[OD+":rk4",OD+":explicit_euler"])
p("C42","odeint solves non-autonomous equations on the given time interval",
 "For y' = q(t) with q a cubic polynomial, odeint with rk4 on ts returns y0 + integral of q from ts[0] to ts[i] at index i.",
 "all polynomials and time grids","tests do not cover ode.py at all",[OD+":_odeint"])
p("C43","odeint on autonomous equations",
 "For dynamics that do not depend on t the result depends only on the step widths, and for y' = lambda*y with lambda <= 0 and |lambda| dt <= 2.5 the discrete solution never grows; the rk4 amplification factor differs from exp(z) by at most |z|^5/100 for |z| <= 1.",
 "all lambdas, steps and time grids","continuum of step sizes",[OD+":odeint",OD+":rk4"])
p("C44","Spline basis: non-negativity and local support",
 "For every non-decreasing grid (repeated nodes allowed), degree k and index i, the i-th basis function is >= 0 everywhere and 0 outside [t_i, t_{i+k+1}); all node indices used are within the grid; there are len(grid)-degree-1 functions.",
 "all grids, degrees, indices and points","unbounded degree and grids",[S+":_base_fun",S+":basis"])
p("C45","Spline basis: partition of unity",
 "For every non-decreasing grid, every degree k with len(grid) >= 2k+2 and every x in [t_k, t_{n}) (n = len(grid)-k-1) the basis functions sum to 1; for x outside of [t_0, t_last) they are all 0.",
 "all grids, degrees and points","unbounded degree and grids",[S+":basis"])
p("C46","make_grid",
 "For start <= stop, power > 0 and num >= 2, make_grid returns num non-decreasing nodes from start to stop exactly, symmetric about the centre, strictly increasing if start < stop.",
 "all bounds, powers and sizes","unbounded sizes and continuum of powers",[S+":make_grid"])
p("C47","make_grid covers the interval for either order of bounds",
 "make_grid(start, stop, ...) begins at start and ends at stop for all start, stop.",
 "all bounds","tests only use start < stop",[S+":make_grid"])
p("C48","SplineActivation perturbs the base activation only on the grid",
 "SplineActivation(x) equals activation(x) for x outside of [node_min,node_max) and whenever the coefficients are 0 (the default initialization); it differs from activation(x) by at most max|coef|; inside the fully supported interval constant coefficients c shift the activation by exactly c.",
 "all nodes, degrees, coefficients and inputs","unbounded sizes",[S+":SplineActivation"])
p("C49","Steihaug-CG stays in the trust region",
 "For every gradient (pytree of any shape), every Hessian-vector callback (even a nonlinear finite-difference one), tr_radius > 0, eps > 0 and iteration limit, the returned step is finite and satisfies |p| <= tr_radius, step_length = |p|, and |p| = tr_radius when the loop stopped because of non-positive curvature or because it hit the boundary.",
 "all gradients, callbacks, radii, tolerances, iteration counts","loop invariant over unboundedly many iterations",[T+":steihaug"])
p("C50","Steihaug-CG decreases the quadratic model",
 "For a linear symmetric hvp and gradient norm >= eps > 0, with at least one iteration allowed, the returned p satisfies g.p + p.Hp/2 < 0, and is at least as good as the best step along the steepest descent direction within the trust region (Cauchy decrease); residual bookkeeping r = g + H p holds whenever the loop ended inside the region.",
 "all gradients, symmetric operators, radii, iteration counts, dimensions","loop invariant over unboundedly many iterations",[T+":steihaug"])
p("C51","TR accepts only actual improvements",
 "When the current gradient norm is above tol > 0 (Hessian symmetric, damping_factor None or >= 0, maxiter_steihaug None or >= 1), update either keeps the parameters, or moves them and then the objective strictly decreases: f(new) <= f(old) - rho_accept * predicted, predicted > 0. Along any number of updates the objective value never increases.",
 "all objectives, parameters, solver options and histories","history property over unboundedly many updates",[T+":TR.update",T+":steihaug"])
p("C52","TR radius stays within bounds",
 "With 0 < min <= init <= max, increase_factor >= 1, 0 < decrease_factor <= 1, the trust-region radius of every state reached by init_state and any number of updates stays in [min_tr_radius, max_tr_radius].",
 "all histories of updates, objectives and options","invariant over all histories",[T+":update_tr_radius",T+":TR.update",T+":TR.init_state"])
p("C53","A rejected step shrinks the radius",
 "Whenever update rejects a step the next radius is decrease_factor * radius (clipped below at min_tr_radius), thanks to the constructor's check rho_accept <= rho_decrease; so at most log(radius/min)/log(1/decrease_factor) + 1 rejections can follow each other before the solver freezes.",
 "all finite ratios and option values","all histories",[T+":update_tr_radius",T+":TR.__post_init__",T+":TR.update"])
p("C54","A step to a non-finite objective value shrinks the radius",
 "If the objective at the trial point is nan, the step is rejected and the radius is decreased so that the next trial is different.",
 "all states","nan handling is not tested",[T+":TR.update",T+":update_tr_radius"])
p("C55","TR state describes the returned parameters",
 "After init_state and after every update the state's value, grad, aux and error are the objective, gradient, auxiliary output and gradient norm at the returned parameters, and iter_num counts the updates except that nothing at all changes any more once the radius is at or below min_tr_radius.",
 "all histories","invariant over all histories",[T+":TR.update",T+":TR.init_state"])
p("C56","Inner tolerance of TR",
 "The inner tolerance used in every update lies in [tol, max(tol, half the gradient norm)], never increases from one update to the next while above tol, and is strictly smaller than or equal to the gradient norm when that is at least tol, so the inner loop performs at least one iteration whenever the solver is not converged.",
 "all histories","invariant over all histories",[T+":TR.update"])
p("C57","TR construction and warm start",
 "Constructing TR with rho_accept > rho_decrease raises ValueError and otherwise succeeds; init_state from a previous step keeps iter_num and the radius unless the radius is at or below the minimum, in which case it is reset to init_tr_radius.",
 "all options and previous states","all options",[T+":TR.__post_init__",T+":TR.init_state"])
p("C58","batches_without_replacement",
 "For every dataset size N, batch size b >= 1 and random permutation, the result has N // b batches of exactly b rows, each row of the data occurs at most once over all batches (exactly once if b divides N), all rows come from the data, and rows of different leaves of the pytree stay aligned. Leaves of different lengths raise an AssertionError.",
 "all datasets, batch sizes and permutations","all permutations",[O+":batches_without_replacement",O+":axis_size"])
p("C59","batches_with_replacement",
 "The result has the requested number of batches with the requested size, all rows come from the data and stay aligned across leaves, and with replace_within_batch=False no batch contains a data row twice.",
 "all datasets, sizes and random draws","all random draws",[O+":batches_with_replacement"])
p("C60","make_iterator",
 "make_iterator yields, epoch by epoch, exactly the batches produced by batch_fn in order (epochs * batches items when batch_fn is uniform); no random key is used twice: the keys passed to batch_fn and the keys handed out with add_rng are pairwise distinct derivations of the seed key and none of them is also split again.",
 "all numbers of epochs and batches","unbounded number of epochs; key reuse is invisible to tests",[O+":make_iterator"])
p("C61","rejection_sampling returns only accepted proposals",
 "Every returned sample was produced by sample_fn and accepted: its uniform draw u satisfies u <= pdf(sample)/m, so for a real-valued density and m > 0 its density is non-negative, and positive when u > 0; n samples are returned; samples use pairwise distinct random keys.",
 "all densities, proposals, keys and numbers of iterations","unbounded rejection loop",[SA+":rejection_sampling"])
p("C62","rejection_sampling never returns a sample of zero or undefined density",
 "A sample whose density is 0 or nan is never returned.",
 "all densities and draws","the events have tiny probability",[SA+":rejection_sampling"])
p("C63","rejection_sampling has the target distribution",
 "If proposals are uniform over a finite set and 0 <= pdf <= m with positive total mass, the probability that value v is returned within k rounds is proportional to pdf(v) for every k, and tends to pdf(v)/sum(pdf) as k grows. For any proposal distribution the probability of returning an element of an event B tends to mean(pdf*1_B)/mean(pdf); for uniform proposals on an interval the distribution function is the normalised integral of pdf.",
 "all proposal sets and distributions, densities, events, k","probability statement",[SA+":rejection_sampling"])
p("C64","impose_dirichlet_bc is exact",
 "Wherever the ADF vanishes the constrained model equals g (0 if g is not given) whatever the free model is; elsewhere it is adf*model + g; argnums select which positional arguments go to adf and g; decorator and direct form agree.",
 "all models, ADFs, boundary data, argument selections","all models",[MO+":impose_dirichlet_bc"])
p("C65","impose_neumann_bc is exact",
 "At a boundary point where the ADF is first-order normalized (gradient norm 1), the derivative of the constrained model along the outward normal equals h (0 if h is not given) for every differentiable free model with continuous normal derivative; the boundary value of the model itself is unchanged.",
 "all models, ADFs and boundary data","all models",[MO+":impose_neumann_bc"])
p("C66","impose_ic",
 "At t = t0 the constrained model equals m0 whatever the free model is; for decay_rate >= 0 and t >= t0 it is a convex combination of m0 and the free model and tends to the free model as t grows (decay_rate > 0, bounded free model).",
 "all models, times and decay rates","all models and limit behaviour",[MO+":impose_ic"])
p("C67","derivative operator selects the right partial derivative",
 "derivative(i)(f) is the partial derivative of f with respect to positional argument i, derivative([i,j,...]) the iterated partial derivatives (independent of the order for smooth f), derivative(['name']) the one of that argument, derivative([k], argnums=j) the k-th partial derivative of vector argument j.",
 "all functions, argument counts and index lists","all functions and index lists",[C+":derivative",C+":value_and_derivative"])
p("C68","derivative rejects or honours every selector",
 "A selector that names an existing parameter of f yields the derivative with respect to that parameter, and one that does not (index out of range) raises an error.",
 "all selectors: negative indices, out of range indices, multi-letter names, keyword arguments","selectors outside the tested ones",[C+":derivative",C+":value_and_derivative"])
p("C69","laplace, divergence and curl are the differential operators",
 "divergence is the sum of d f_i/d x_i, curl (2d and 3d) the usual combination and laplace the sum of second derivatives in every dimension; for twice continuously differentiable fields divergence(curl F) = 0, curl(grad f) = 0 and laplace f = divergence(grad f); curl raises ValueError in dimensions other than 2 and 3.",
 "all smooth fields and points","all smooth fields",[C+":laplace",C+":hessian_diag",C+":divergence",C+":value_and_divergence",C+":curl3d",C+":curl2d"])
p("C70","Hessian-vector products agree",
 "hvp, hvp_forward_over_reverse (alpha adds alpha*v) and hvp_reverse_over_reverse compute the same vector, linear in v, for twice continuously differentiable functions; value_grad_hvp returns the value, gradient, that product and aux of the function for all four combinations of value_and_grad and has_aux.",
 "all smooth functions, vectors, flags","all functions and flags",[C+":hvp",C+":hvp_forward_over_reverse",C+":hvp_reverse_over_reverse",C+":value_grad_hvp"])
p("C71","Surface integrals add up over elements",
 "The sum over all elements of integrate_surface_elements of an integrand that ignores the element centre equals integrate_surface over the whole grid; element centres are the images of the parameter midpoints.",
 "all parametrizations, grids and integrands","unbounded grids",[SI+":integrate_surface",SI+":integrate_surface_elements",SI+":center",SI+":midpoints"])
p("C72","single_layer_potential contracts matching Taylor terms",
 "Contracting charge_tensor with source_tensor pairs every Taylor coefficient of the charge with the matching moment of the same element: for a charge that is a polynomial of degree <= order the result equals 1/(4 pi) times the quadrature of f(y)/|x-y| over the surface; the flattened orders of elements and multi-indices agree.",
 "all grids, orders 0..2, polynomials, targets","index conventions for all grids",[SI+":_source_tensor",SI+":charge_tensor",SI+":single_layer_potential"])
p("C73","normalized and unnormalized potential charges agree",
 "On the boundary, for a normalized ADF, scalar_potential_charge(adf, mag, phi, normalized=True) equals scalar_potential_charge(adf, mag, adf*phi, normalized=False), and likewise for vector_potential_charge; the charge does not depend on rescaling the ADF by a positive factor in the unnormalized case.",
 "all magnetizations, potentials and boundary points","all models",[SI+":scalar_potential_charge",SI+":vector_potential_charge"])
p("C74","curl_single_layer_potential is the curl of single_layer_potential",
 "For a vector charge, curl_single_layer_potential(d source, charge) equals the curl (with respect to the target point) of single_layer_potential(source, charge).",
 "all sources and charges","index and sign conventions for all inputs",[SI+":curl_single_layer_potential",SI+":single_layer_potential"])
p("C75","make_funs_with_aux normalizes the objective",
 "For all four combinations of value_and_grad and has_aux, the three returned functions report the same value, aux (None when has_aux is False) and gradient of the user's objective.",
 "all objectives and flags","all objectives",[U+":make_funs_with_aux"])
p("C76","MLP shapes and forward pass",
 "mlp(key, [n0,...,nk]) maps an input of n0 features to nk outputs (a scalar when nk = 1) as alternating affine maps and activations, with no activation after the last layer; a layer list without output layer is an error; inputs of a different size are rejected.",
 "all layer lists and inputs","unbounded layer lists",[MO+":MLP",MO+":mlp"])
p("C77","Scalar to a quaternion power",
 "For base > 0, base ** q is finite and has absolute value base ** real(q) (imaginary part zero or large enough not to be treated as zero by sgn).",
 "all bases and quaternions","continuum of inputs",[Q+":Quaternion.__rpow__",Q+":quanternion_exp"])
p("C78","Disk, Annulus and Sphere transforms have constant Jacobian",
 "At every sample with coordinates strictly between 0 and 1, Disk/Annulus/Sphere.transform is differentiable and the modulus of its Jacobian determinant is the constant support(); the surface element of Sphere.transform_bnd is the constant 4 pi r^2. So uniform samples are mapped to uniform samples.",
 "all radii, origins and samples","a density statement at every point of a continuum",[D+":transform_annulus",D+":transform_sphere",D+":transform_sphere_bnd",D+":Disk.support",D+":Annulus.support",D+":Sphere.support"])
p("C79", "Spline basis: polynomial reproduction and smoothness",
  "For every non-decreasing grid and x in [t_k, t_n) Marsden's identity holds, i.e. (y-x)^k is the combination of the basis functions with coefficients prod_j (y - t_{i+j}) and x is the combination with the mean node values. On strictly increasing grids the functions of degree >= 1 are continuous and those of degree >= 2 have the derivative k*(B_{i,k-1}/(t_{i+k}-t_i) - B_{i+1,k-1}/(t_{i+k+1}-t_{i+1})) everywhere, including the nodes.",
  "all grids, degrees, indices and points", "unbounded degree and grids, continuum of points",
  ["magpi/spline.py:_base_fun", "magpi/spline.py:basis"])
p("C80","Steihaug-CG ends after at most n iterations",
 "For a symmetric Hessian-vector callback on n unknowns the loop performs at most n iterations, so with the default iteration limit 10*n the result is always marked converged; a larger iteration limit never gives a shorter step.",
 "all gradients, symmetric operators, radii, tolerances, dimensions","unbounded dimension; exact arithmetic",["magpi/tr.py:steihaug"])
p("C81","tree_dim and tree_single_dtype",
 "tree_dim returns n exactly when the pytree has a leaf and all leaves have n rows, as axis_size does; leaves of different sizes or an empty tree raise AssertionError. tree_single_dtype returns None without array leaves, the common dtype if there is one, and raises ValueError exactly when two dtypes differ.",
 "all pytrees","unbounded number of leaves",[U+":tree_dim",U+":tree_single_dtype"])
p("C82","Negative argument numbers of the impose functions",
 "In impose_dirichlet_bc, impose_neumann_bc and impose_ic a negative argument number selects from the end like the corresponding non-negative one, for argnums_adf, argnums_g, argnums_h, argnums_m0, argnum_t and argnum_model.",
 "all argument lists and numbers","all argument lists",[MO+":impose_dirichlet_bc",MO+":impose_neumann_bc",MO+":impose_ic"])
p("C83","single_layer_potential keeps the axes of the charge",
 "The potential computed from the charge_tensor of a charge function has the same shape as the values of the charge function, for scalar, vector and matrix valued charges.",
 "all shapes, orders, grids","unbounded shapes",[SI+":charge_tensor",SI+":single_layer_potential"])
p("C84","Cayley rotation",
 "cayley_rotation(p, x) is defined for every p and x of length 3 and is the unique y with y - p x y = x + p x x. It preserves inner products and vector products, is linear, keeps p fixed, is undone by -p, and for p = tan(t/2) n with a unit vector n it is the right-handed rotation by t about n. A parameter of another length raises AssertionError.",
 "all p, x","continuum of axes, angles and vectors",[MU+":cayley_rotation",MU+":to_skew_simmetric_matrix"])
p("C85","Cuboid of mumag3: construction, normalization, adf",
 "Cuboid(xs, ys, zs) accepts exactly the grids with at least two points in non-decreasing order, else AssertionError. normalize maps the box affinely onto [-1,1]^3 (non-finite if an edge has length zero). adf is positive inside, zero on the boundary and negative outside the box.",
 "all grids and points","continuum of grids and points",[MU+":Cuboid",MU+":Cuboid.normalize",MU+":Cuboid.adf"])
p("C86","Cuboid normals",
 "Cuboid.normal_vec returns the outward unit normal at every point in the interior of a side, for one point and for batches of points.",
 "all boxes, sides, points and batch sizes","derivative of the adf at every boundary point",[MU+":Cuboid.normal_vec",MU+":Cuboid._normal_vec"])
p("C87","Cuboid faces",
 "A Cuboid has exactly the six faces of the box, with the two free axes in ascending order, the constant coordinate at the lower and upper bound, and midpoints that are the middles of the grid cells on the face.",
 "all grids","unbounded grids",[MU+":_faces",MU+":_midpoints",MU+":Face"])
p("C88","Surface integral and potential of the Cuboid",
 "surface_integral(domain, f, subintervals=n, method) evaluated off the surface is the sum over the six sides and all their cells of the product quadrature (cells divided n times) of T(y)/|x-y|, T being the quadratic Taylor polynomial of f in the face at the middle of the cell; single_layer_potential is that divided by 4 pi. For quadratic charges T is the charge itself.",
 "all grids, charges, rules, subdivisions and targets","unbounded grids; any charge",[MU+":surface_integral",MU+":single_layer_potential",MU+":integrate_surface",MU+":charge_taylor_coefs2",MU+":integrate_face"])
p("C89","Both stray field variants agree",
 "The field computed with surface_tensors_grad (use_precomputed_grad_tensors=True) equals the field obtained by differentiating the potential, and both are -grad(phi1) - grad(phi2).",
 "all grids, charges, first potentials and targets off the surface","equality of two derivative computations at every point",[MU+":create_stray_field_solver",MU+":surface_tensors_grad",MU+":solve_sufrace_integral"])
p("C90","Default subintervals of the Cuboid integrals",
 "surface_integral and single_layer_potential of mumag3.py can be evaluated with their default arguments at every target point off the surface.",
 "all boxes, charges, targets","all targets",[MU+":surface_integral",MU+":single_layer_potential",MU+":integrate_face"])
p("C91","Stray field ansatz",
 "phi1 is the adf times the random feature network, so it vanishes on the surface of the box; the charge of phi2 is m.n minus the normal derivative of phi1 in the interior of every side.",
 "all weights, boxes, magnetizations","derivatives at every boundary point",[MU+":create_stray_field_solver"])
p("C92","support() is the volume",
 "Hypercube.support is the iterated integral of 1 over the box; Disk.support the area of the disk (integral of its chord lengths), Sphere.support the volume of the ball (integral of its circular sections), Annulus.support the difference of the areas of its two disks.",
 "all boxes, radii","unbounded dimension; continuum of radii",[D+":Hypercube.support",D+":Disk.support",D+":Sphere.support",D+":Annulus.support"])
p("C93","Arrays of samples are transformed sample by sample",
 "Hypercube, Annulus, Disk, Sphere, Parallelogram, triangle and polyline transforms applied to an array of samples of any leading shape return the array of the transformed samples with the same leading shape; so do Hypercube.transform_bnd, Sphere.transform_bnd and includes (Hypercube.includes per coordinate). All points lie in the domain. The constructors accept scalar radii and 1-d origins only; an origin of the wrong length raises AssertionError in the transforms.",
 "all leading shapes, samples and domains","unbounded ranks and sizes",[D+":transform_hypercube",D+":transform_hypercube_bnd",D+":transform_annulus",D+":transform_sphere",D+":transform_sphere_bnd",D+":Parallelogram.transform",D+":transform_polyline",D+":Sphere",D+":Disk",D+":Annulus"])
p("C94","Disk.transform_bnd of arrays of samples",
 "Disk.transform_bnd maps an array of k samples to the array of shape (k,2) of the transformed samples, for every k.",
 "all k, samples, disks","unbounded array sizes",[D+":transform_circle_bnd",D+":Disk.transform_bnd"])
p("C95","Jacobians in both modes",
 "value_and_jacfwd and value_and_jacrev return f(args) and the array of all partial derivatives, output axes first, for outputs and arguments of any shape; with a tuple of distinct argument numbers one Jacobian per number; with has_aux the auxiliary data unchanged. Both modes give the same result for every function. Argument numbers out of range raise ValueError.",
 "all functions, shapes, arguments, argument numbers","all functions; unbounded ranks and sizes",[C+":value_and_jacfwd",C+":value_and_jacrev"])
p("C96","Divergence of other shapes",
 "divergence of a scalar function is the sum of its partial derivatives; of a field R^n -> R^m the sum over the first min(m,n) diagonal entries of the Jacobian; of a matrix field the vector of the divergences of its rows; Jacobians of rank 0 or at least 4 raise ValueError.",
 "all functions, dimensions, argument numbers","all functions; unbounded dimensions",[C+":divergence",C+":value_and_divergence"])
p("C97","Operators on flax modules",
 "laplace, divergence, curl and derivative of a flax module are those of the function (x, p, ...) -> module.apply(p, x, ...): derivatives in the inputs for argument 0 and in the variables for argument 1, for any list of component or position selectors.",
 "all modules, variables, inputs, selector lists","all modules; unbounded selector lists",[C+":apply_to_module",C+":laplace",C+":divergence",C+":curl",C+":derivative"])
p("C98","Parameter names of flax modules",
 "In derivative([names])(module) the names x and p select the inputs and the variables in every position of the list.",
 "all modules called with x, all lists of names","unbounded lists",[C+":apply_to_module",C+":derivative"])
p("C99","Quaternion as a pytree",
 "tree_unflatten(tree_flatten(q)) is q; tree_map of an elementwise function applies it to all four components; children of other shapes raise AssertionError, in particular the stacked leaves of vmap of a function that returns quaternions, for every batch.",
 "all quaternions, functions, batches","all values; unbounded batches",[Q+":Quaternion.tree_flatten",Q+":Quaternion.tree_unflatten",Q+":Quaternion.__init__"])
p("C100","Trust region solver stops after a computable number of updates",
 "For an objective bounded below, finite, with bounded curvature, every sequence of TR updates longer than an explicit number (from the objective gap, tol, the radius bounds, rho_accept and decrease_factor) ends in a state whose error is below tol or whose radius is at most min_tr_radius. Any starting point, fresh or warm start.",
 "all smooth objectives bounded below, all options that allow progress, all starting points","unbounded dimension and run length",[T+":TR.update",T+":steihaug",T+":update_tr_radius"])
p("C101","Trust region solver reaches the tolerance",
 "If in addition the gradient is Lipschitz and min_tr_radius is below an explicit safe radius, the radius never shrinks to min_tr_radius before convergence, so after that many updates the reported error is the gradient norm at the returned parameters and is below tol.",
 "all smooth objectives bounded below, all options that allow progress, all starting points","unbounded dimension and run length",[T+":TR.update",T+":steihaug",T+":update_tr_radius"])
p("C102","The weights of the first potential are a least squares fit",
 "create_stray_field_solver chooses weights that minimise the sum over the points X_dom of (laplace(phi1) - div(m))^2 over all weights, with the least norm among the minimisers, provided the SVD is a singular value decomposition without vanishing singular values; if some weights satisfy the Poisson equation at all points, the fitted ones do. A vanishing singular value gives non-finite weights.",
 "all boxes, weights, point sets inside the box, magnetizations, singular value decompositions","minimum over a continuum of weights; unbounded sizes",[MU+":create_stray_field_solver"])
p("C103","Stray field solver as a whole",
 "The field returned by create_stray_field_solver inside the box is -grad(phi1) - grad(phi2)/(4 pi) in both variants, with phi1 the fitted potential vanishing on the surface and phi2 the quadrature of the expanded charge m.n - d phi1/dn.",
 "all boxes, weights, point sets, magnetizations, rules, subdivisions, targets inside","every target; any magnetization",[MU+":create_stray_field_solver",MU+":surface_tensors_grad"])
p("C104","Order of convergence of integrate",
 "On a one-dimensional grid with steps at most h, a rule exact for degree K (midpoint, trap: 1; simpson: 3; gauss: the degree of its reference rule) returns the integral of a function with K+1 derivatives up to 2 M/(K+1)! (h/2)^(K+1) (b-a), M bounding the (K+1)-st derivative. For every continuous integrand the result tends to the integral as the steps tend to 0. In k >= 2 dimensions the result differs from the iterated integral of an L-Lipschitz integrand by at most k L h times the volume.",
 "all rules, grids, integrands, dimensions","a limit and an inequality over all grids and integrands",[I+":integrate",I+":midpoint",I+":trap",I+":simpson",I+":gauss"])
p("C105","Convergence of odeint",
 "If df is Lipschitz in state and time and sol solves y' = df(y, t) with slopes at most B, then odeint with explicit_euler, started within e0 of sol(t0), stays at every grid time t within exp(L (t-t0)) (e0 + (L B + Lt) h (t-t0)) of sol(t); with rk4 and L h <= 1/2 the same holds with 4 (L B + Lt). For time dependent df no bound of second order holds for rk4 inside odeint; for df that does not depend on time and has bounded partial derivatives up to order four the error with rk4 is at most exp(N M (t-t0)) (e0 + K h^4 (t-t0)), with N the number of state entries, M the bound and K depending on df and sol only.",
 "all right-hand sides, solutions, grids with steps at most h, initial states","exact solutions of arbitrary equations; any number of steps",[OD+":odeint",OD+":rk4",OD+":explicit_euler"])
p("C106","Integer arguments are treated like the equal floats",
 "Quaternion construction, arithmetic, exp, log, powers, rotation, reflection and the from_* constructors, rotate2d, SplineActivation with parameterize_grid=True, the quadrature rules and odeint give for integer arguments the result they give for the equal floating point arguments.",
 "all integer and float arguments, every combination of dtypes",
 "tests pass floats; the results depend on the dtype of every argument",
 [RF+":rotate2d",Q+":Quaternion",Q+":quaternion_reflection",Q+":sgn",S+":SplineActivation",I+":simpson",OD+":odeint"])
p("C107","rejection_sampling takes on average m rounds per sample",
 "For a density bounded by m the expected number of rounds (proposal and uniform number) until a sample is accepted is m, as the docstring says.",
 "all proposal distributions, densities, m","expectation over unbounded runs",[SA+":rejection_sampling"])
p("C108","rejection_sampling with too small m samples the cut-off density",
 "If the density exceeds m somewhere, or is negative somewhere, no error is raised: the returned sample follows the density clipped to [0, m], normalised under the proposal distribution, and the expected number of rounds is m divided by the mean of the clipped density.",
 "all proposal distributions, densities, events, m > 0","probability statement",[SA+":rejection_sampling"])
p("C109","Surface integrals and surface potentials converge",
 "integrate_surface with a rule made for polynomials of degree K differs from the exact surface integral by O(h^(K+1)) for smooth integrands on grids with steps at most h. single_layer_potential with an expansion of order n differs from the exact potential (1/4pi) * integral of g/|x-y| by at most a term O(h^(n+1)) from the charge and a term O(h^(K+1)) from the quadrature; the potential of a Cuboid by O(H^3) + O((H/n)^(K+1)) for cells of size H divided n times, with explicit constants.",
 "all rules of the library, grids, parametrizations, smooth charges, orders, targets off the surface","limit statement over all grids and smooth functions",[SI+":integrate_surface",SI+":single_layer_potential",MU+":single_layer_potential"])
p("C110","Differential operators act leaf by leaf on pytree results",
 "laplace, divergence and curl of a function that returns a pytree of arrays return a pytree of the same structure whose leaves are the Laplacians, divergences and curls of the leaves, for leaves of every shape the operator accepts; with a sequence of argument numbers divergence returns a tuple, in the order of the numbers, in place of every leaf. curl raises AssertionError if the last axis of any leaf does not have the dimension of the point and IndexError if a leaf has no axes; divergence raises ValueError if any leaf has more than two axes.",
 "all functions with results of any structure and number of leaves, all points and argument numbers","structures and shapes are unbounded, and a wrong leaf only matters in combination with right ones",[C+":laplace",C+":divergence",C+":value_and_divergence",C+":curl",C+":curl3d",C+":curl2d",C+":hessian_diag",C+":is_2d",C+":is_3d"])
p("C111","Hessian vector products of pytrees",
 "For a scalar function of several pytrees of arrays, hvp and hvp_forward_over_reverse return a pytree with the structure and shapes of the first argument whose entries are those rows of the Hessian (with respect to all entries of all arguments) times the tangents, plus alpha times the first tangent; hvp_reverse_over_reverse and value_grad_hvp do the same for one pytree, in all four calling conventions (value_and_grad, has_aux). Tangents of another structure or shape raise TypeError.",
 "all trees of arrays of any shapes, all twice continuously differentiable functions, all tangents","unbounded numbers of leaves and axes; an error in the order of leaves or axes is invisible for one leaf",[C+":hvp",C+":hvp_forward_over_reverse",C+":hvp_reverse_over_reverse",C+":value_grad_hvp"])
p("C112","TR minimises the user's function",
 "For a user function of a pytree of arrays, in any of the four calling conventions, TR evaluates the function value, its gradient and auxiliary value, and Hessian vector products (exact, or difference quotients of the gradient with approx_hvp). If the function is twice continuously differentiable, no number of updates raises its value, and value, gradient, error and aux in the state are those of the function at the returned parameters. If in addition it is bounded below and its curvature is bounded by B, then with min_tr_radius below an explicit threshold the gradient norm at the returned parameters is below tol after an explicit number of updates. With approx_hvp the same holds when the difference quotients are exact (quadratic functions).",
 "all pytrees of arrays of any shapes, all C2 functions, all starting points, all options in the stated ranges, all numbers of updates","continuum of functions, unbounded numbers of leaves and updates",["magpi/tr.py:TR.update","magpi/tr.py:TR.init_state","magpi/tr.py:TR.__post_init__",U+":make_funs_with_aux",C+":value_grad_hvp"])
p("C113","TR with difference quotients of the gradient",
 "With approx_hvp=True the Hessian vector products of TR differ from the exact ones by at most M |fd_h| / 2 |p|^2 and the predicted reduction by at most M |fd_h| / 4 |p|^3, if the Hessian is Lipschitz with constant M. A step is accepted exactly if the quotient of the actual and the predicted reduction is at least rho_accept. No update increases the objective.",
 "all pytrees of arrays, all C2 functions, all starting points, radii and options in the stated ranges, all numbers of updates","continuum of functions and points; the increase needs a function adapted to fd_h",["magpi/tr.py:TR.update","magpi/tr.py:steihaug"])
p("C114","ADFs of composed solids are watertight",
 "Take any expression that nests the primitives, transformations and set operations of r_fun. The resulting function is positive exactly inside the solid the expression describes, negative exactly outside, and continuous. Hence every continuous path from inside to outside meets a point with value 0. (rotate3d turns by the negative angle, see C09.)",
 "all expressions of any size, all dimensions, all points that do not meet the centre of an ellipsoid, all r_alpha systems and all r_p systems with p >= 2","nesting is unbounded, points and paths form a continuum",[RF+":compose",RF+":cuboid",RF+":translate",RF+":equivalence"])
p("C115","ADFs of composed solids have unit normals",
 "Take an expression as in C114 without scale_without_normalization and project. At every boundary point that lies on one face of one primitive only, with all other parts strictly decided (and off the axis of a revolution), the function is 0, differentiable, and its gradient has length 1. A small step along the gradient leads inside, a small step against it leads outside.",
 "all expressions of any size, all dimensions, all such boundary points, all r_alpha systems and all r_p systems with p >= 2","nesting is unbounded, boundary points form a continuum",[RF+":compose",RF+":cuboid",RF+":revolution",RF+":scale"])
p("C116","The pacman of examples/pacman.ipynb has the intended shape",
 "The ADF built in the notebook is positive exactly in the unit ball without the wedge of the mouth, in the two eyes and in the two balls in front of the mouth, and negative exactly beyond their closures. At every smooth point of the surface (head, lips, eyes, balls) it is 0 with a gradient of length 1.",
 "all points of space, all sign correct R-systems; for the gradient all r_alpha systems and all r_p systems with p >= 2","points form a continuum",["examples/pacman.ipynb",RF+":compose",RF+":difference",RF+":union"])
p("C117","Hard constraints hold for every network",
 "Let f be the ADF of a composed solid. The ansatz g(x) + f(x) * N(x) equals g on the boundary, for every function N. At a smooth boundary point its normal derivative is that of g plus N(x). In particular the ELM of examples/elm_poisson.ipynb vanishes on the boundary of the unit square for all input and output weights.",
 "all expressions of any size, all dimensions, all boundary points, all functions N (continuous at the point for the derivative), all weights","functions and boundary points form a continuum",["examples/elm_poisson.ipynb",RF+":cube",RF+":compose"])
p("C118","The ELM fit of examples/elm_poisson.ipynb solves the ridge regression",
 "The weights computed by the notebook minimise the sum of the squared residuals of laplace(u) = laplace(solution) at the collocation points plus l2_reg times the squared norm of the weights, and no other weights do. Without regularisation a zero singular value makes the weights nan.",
 "all collocation points inside the unit square that are no centre of a radial function, all centres, gamma, l2_reg > 0 and solutions, all singular value decompositions that meet their contract","weights form a continuum",["examples/elm_poisson.ipynb",C+":laplace",RF+":cube"])
p("C119","Jacobians and derivatives of functions with pytree results",
 "value_and_jacfwd and value_and_jacrev of a function that returns a pytree of arrays return the value and a pytree of the same structure whose leaves are the Jacobians of the leaves, the axes of the argument last; with a sequence of argument numbers there is a tuple, in the order of the numbers, in place of every leaf. derivative, by positions, names or components of vectors, returns a pytree of the same structure and shapes whose entries are the partial or mixed derivatives of the entries.",
 "all functions with results of any structure, number and shapes of leaves, all arguments of any shape (derivative: 0-d and 1-d arguments), all argument numbers including negative ones, all lists of selectors","structures, shapes and lists are unbounded; an exchange of leaves or axes is invisible for one leaf",[C+":value_and_jacrev",C+":value_and_jacfwd",C+":derivative",C+":value_and_derivative"])
p("C120","Rounding does not flip the sign of r0",
 "With arithmetic of a fixed precision, rounded to nearest, the ADF of any nesting of complement, union, intersection, equivalence, implication, difference and xor of r0 is positive at the points of the set and negative at the others, given that the ADFs it is built from are. Each conjunction and disjunction has an absolute error of at most 6 * 2^-precision * (|a| + |b|).",
 "all precisions of at least 4 bits, all ways to break ties, all nestings, all values of the leaves; exponents are unbounded","the set of float pairs and of nestings is too large to enumerate",[RF+":RAlpha.conjunction",RF+":RAlpha.disjunction",RF+":RFun.xor",RF+":RFun.equivalence"])
p("C121","r0 and r1 in float32",
 "For finite float32 numbers the conjunction and disjunction of r0 and r1 are finite, never have the wrong sign and have a small absolute error.",
 "all finite float32 numbers, with the infinities, nans, subnormal numbers and overflow of IEEE 754","2^64 pairs; the failures are at extreme magnitudes or at special pairs of close numbers",[RF+":RAlpha.conjunction",RF+":RAlpha.disjunction"])
p("C122","TR.run stops at the tolerance",
 "TR.run makes updates until the error is at most tol or maxiter updates are made, and at least one unless maxiter is 0. Its result has no larger value than the start, its state holds the value and the gradient norm of the result, and the gradient norm is at most tol.",
 "all twice continuously differentiable functions of pytrees of arrays, all starts, options and maxiter","the number of iterations is unbounded and tests run only a few functions",[T+":TR",T+":TR.init_state",T+":TR.update"])
p("C123","axis_size along any axis",
 "axis_size(tree, axis) returns n exactly if the tree has leaves and each of them has size n along the axis, counted from the end if the axis is negative; axis_size fails with AssertionError if the sizes differ and with IndexError if there is no leaf or a leaf has no such axis.",
 "all trees of arrays of any rank, all integers as axis","ranks, axes and sizes are unbounded; tests only use axis 0",[O+":axis_size",O+":check_axis_size"])
p("C124","The magnetization of the notebooks has unit length",
 "The function mag of examples/hysteresis.ipynb and examples/mumag3.ipynb returns a unit vector at every point of space, whatever the network and its parameters are, if the initial magnetization is a unit vector. The initial magnetizations m0, m_flower and m_vortex are unit vectors at every point.",
 "all cuboid grids, points, networks and parameters","points and parameters form a continuum and the notebooks have no tests",["examples/hysteresis.ipynb","examples/mumag3.ipynb",MU+":cayley_rotation"])
p("C125","The energies of the notebooks are the micromagnetic energies",
 "The losses of examples/hysteresis.ipynb and examples/mumag3.ipynb return the mean exchange, anisotropy, stray field and external energies over the sample points, and their sum e_tot; the value to minimise is e_tot + e_mag. For a unit magnetization the exchange energy is not negative and 0 exactly if the Jacobian is 0 at the points, the anisotropy energy is between 0 and Ka and 0 exactly if the magnetization is parallel to the easy axis at each point, and the external energy is at least -|hext|, with equality for hext > 0 exactly if the magnetization is along the field.",
 "all magnetizations, stray field solvers, sample points, exchange lengths, constants and fields","magnetizations form a space of functions and the notebooks have no tests",["examples/hysteresis.ipynb","examples/mumag3.ipynb"])
p("C126","TR minimises the total energy in the hysteresis notebook",
 "The automatic gradient of the loss of examples/hysteresis.ipynb, with stop_gradient in the stray field, is the gradient of the value of the loss, and of the total energy if the stray field is reciprocal; TR with the options of the notebook then lowers the total energy until the gradient norm is at most tol.",
 "all curves of parameters, magnetizations, reciprocal stray field solvers and sample points","parameters form a continuum and the notebooks have no tests",["examples/hysteresis.ipynb",T+":TR.update"])
p("C127","Boundary conditions hold on the boundary of composed solids",
 "Take any program that builds a solid with the primitives, set operations and transformations of r_fun.py, and pass its distance function as adf to impose_neumann_bc or impose_dirichlet_bc. At a smooth boundary point the model with Neumann data h has its old value and the derivative h along the unit vector that leaves the solid there; without h the derivative is 0. At every boundary point the model with Dirichlet data g has the value g.",
 "all programs (nesting depth, dimension, parameters, R-systems RAlpha with alpha < 1 and RP), points, models, data of any shape and argument positions","programs, points and models are infinitely many; the tests use one or two solids at a few points",[MO+":impose_neumann_bc",MO+":impose_dirichlet_bc",RF+":RAlpha",RF+":RP",RF+":cuboid",RF+":revolution"])
p("C128","TR follows the trust-region rule",
 "After every update of TR that makes a step with finite ratio rho: the step is accepted exactly if rho >= rho_accept, otherwise the parameters stay; the radius is multiplied by decrease_factor if rho < rho_decrease; it is multiplied by increase_factor (at most max_tr_radius) if rho > rho_increase and the step ends on the boundary of the region, within 1e-8 + 1e-5 radius; otherwise it stays. The flag limit_step of the subproblem has the same meaning.",
 "all objectives, parameters, states and options","all histories and option values; the tests look at two or three final results",[T+":update_tr_radius",T+":TR.update",T+":steihaug"])
p("C129","ADFs called with a 2-d array of points",
 "An ADF called with an array of N points (shape (N, n)) instead of one point returns one number. For N = 1 it is the value at the point, unless the solid is rotated, revolved or contains a cylinder; rotated and revolved solids raise for every 2-d array. For intersections of shifted and scaled boxes the number is positive exactly if all points are inside and negative exactly if one point is outside; the same is expected of every solid, but with spheres, ellipsoids and unions only one direction holds, and with complements none. A reflection or projection of N points with N, n >= 2 raises TypeError unless N = n, and for N = n it silently moves the points by wrong amounts.",
 "all programs that nest the functions of r_fun.py, all arrays of points","the tests call ADFs with single points or under vmap only",[RF+":cuboid",RF+":sphere",RF+":cylinder",RF+":reflect",RF+":project",RF+":rotate2d",RF+":rotate3d",RF+":revolution",RF+":compose"])
p("C130","Integrals over annuli and shells converge",
 "integrate_disk and integrate_sphere return a value whose distance from the integral in polar or spherical coordinates is at most a constant times the largest step, for integrands that are bounded and Lipschitz between the two radii; the constant depends only on the bound, the Lipschitz constant, the radii and the angles. With n nodes in every direction the result tends to the integral as n grows.",
 "all radii 0 <= r_inner <= r, angles, origins, node counts, rules of the library, bounded Lipschitz integrands","the tests integrate single functions with one number of nodes",[I+":integrate_disk",I+":integrate_sphere"])
p("C131","Hypercube samples in float32",
 "In float32 arithmetic Hypercube.transform maps every sample that is not negative and not exactly 1 into the closed box, so that includes returns True for it, and the result differs from the exact image of the sample by a few units in the last place of the corners. includes compares exactly. This needs an edge length that does not overflow; for finite corners whose distance overflows the result is nan or inf. The sample 1, the end of the documented range, can be mapped out of the box.",
 "all float32 corners and samples, all dimensions","rounding errors at the corners depend on rare bit patterns",[D+":Hypercube.transform",D+":Hypercube.includes",D+":transform_hypercube"])
p("C132","Boxes and balls with rounded arithmetic",
 "With rounded arithmetic of any precision the ADF of a cuboid, translated at most once, and every nesting of the set operations of r0 over such cuboids never has the wrong sign: positive only strictly inside, negative only outside. For a ball in n dimensions the same holds up to a relative error of about n + 2 units in the last place of the squared distance, in whatever order the squares are added, and outside this margin the sign is decided; without the margin it fails in float32 in both directions.",
 "all precisions of at least 4 bits, all roundings to nearest, all edge lengths, shifts, points, radii and nestings","rounding errors near the boundary depend on rare bit patterns",[RF+":cuboid",RF+":translate",RF+":sphere",RF+":RAlpha"])
p("C133","Derivatives of the spline basis by automatic differentiation",
 "Nested forward derivatives of spline.basis with respect to the input are defined for every grid; each is the derivative from the right of the one before at every input, nodes included, the two-sided derivative up to order degree - 1 on strictly increasing nodes, and 0 above the degree. Forward derivatives in a direction of input and grid are the directional derivatives at inputs that are not nodes if no two nodes at most degree places apart coincide. In that case, which covers every grid of make_grid with start < stop, reverse mode returns finite cotangents, the transpose of the forward derivative. If two such nodes coincide, the reverse-mode gradient with respect to the input is not finite at every input and for all cotangents, although the forward derivative is.",
 "all grids, inputs, degrees, orders of differentiation, directions and cotangents","the tests differentiate no splines",[S+":_base_fun",S+":basis",S+":make_grid"])
p("C134","Derivatives of ADFs by forward-mode automatic differentiation",
 "For every ADF built from the primitives, transformations and set operations of r_fun, with any of the R-systems RAlpha, RAlphaM, RP and RhoBlending, a directional derivative that jax.jvp returns as a finite number is the derivative of the ADF along every curve with that direction. If alpha < 1, p >= 2 and rho > 0, then away from edges, centres, axes and points where the boundaries of two operands meet the derivative is finite: jvp gives the product of the gradient with the direction and jacfwd gives the gradient. Derivatives of ellipsoids are finite and correct except at the centre. At the centre of a sphere and on the axis of a cylinder the ADF has a gradient but jacfwd is not finite, and with r1 the union of any ADF with itself has no finite derivative anywhere.",
 "all programs, dimensions, points, directions, R-systems and their parameters, all user functions with correct derivatives","the tests check gradients of a few ADFs at a few points",[RF+":RAlpha",RF+":RAlphaM",RF+":RP",RF+":RhoBlending",RF+":cuboid",RF+":sphere",RF+":cylinder",RF+":ellipsoid",RF+":union",RF+":intersection",RF+":difference",RF+":translate",RF+":revolution"])
p("C135","Additional arguments of the integration functions",
 "Additional positional and keyword arguments of integrate, integrate_disk and integrate_sphere are passed to the integrand unchanged.",
 "all integrands, domains, rules, positional and keyword arguments","the tests pass no additional arguments",[I+":integrate",I+":integrate_disk",I+":integrate_sphere"])
p("C136","Derivatives of odeint by automatic differentiation",
 "jax.jvp of odeint, with rk4, explicit_euler or another method with a correct derivative, returns the derivative of every state with respect to the initial value, the times and the additional arguments. jax.vjp is the transpose with respect to the same variables and hence the gradient of every weighted sum of all states.",
 "all dynamics with correct derivatives, initial values, times, tangents and cotangents","the tests do not differentiate odeint",[OD+":odeint",OD+":rk4",OD+":explicit_euler"])
with open('/verif/properties.jsonl','w') as f:
    for x in P: f.write(json.dumps(x)+"\n")
print(len(P))
