{"id": "C01", "title": "R-functions decide set membership by sign", "statement": "For RAlpha(alpha) with any alpha in (-1,1] and for RP(p) with any even p >= 2, the sign (+,0,-) of conjunction(a,b) is the minimum of the signs of a and b, and the sign of disjunction(a,b) is the maximum. For RAlphaM(m, alpha) the same holds for every m whenever (a,b) is not (0,0), and at (0,0) too when m >= 0. Hence union, intersection, difference, implication, equivalence, xor and negate of two ADFs have at every point the sign given by the three-valued logic of the operand signs.", "quantifier": "every alpha, p, m accepted, every pair of ADFs and every point", "why_tests_cant": "sampling points cannot settle a sign condition over the whole plane and every parameter value", "anchors": ["magpi/r_fun.py:RFun", "magpi/r_fun.py:RAlpha", "magpi/r_fun.py:RAlphaM", "magpi/r_fun.py:RP"]}
{"id": "C02", "title": "R-function identities", "statement": "r1.conjunction/disjunction are exactly min/max; RP(2) and RAlpha(0) compute the same values; RP(p) computes a + b -/+ the p-th root of a^p + b^p for even p >= 2, and rp4 is RP(4); in every system disjunction(a,b) = -conjunction(-a,-b) (De Morgan), conjunction and disjunction are commutative, and conjunction + disjunction of RAlpha is 2(a+b)/(1+alpha).", "quantifier": "all reals a, b and all accepted parameters", "why_tests_cant": "identities over a continuum of arguments and parameters", "anchors": ["magpi/r_fun.py:RAlpha", "magpi/r_fun.py:RP", "magpi/r_fun.py:r1", "magpi/r_fun.py:r0", "magpi/r_fun.py:rp2", "magpi/r_fun.py:rp4"]}
{"id": "C03", "title": "R-functions preserve normalization", "statement": "At any point where one operand is 0 and the other is positive (negative for disjunction), the partial derivative of RAlpha/RP conjunction (disjunction) with respect to the vanishing operand is 1 and with respect to the other operand is 0. For RP(p) the conjunction deviates from the vanishing operand a only by at most a^p/(p b^(p-1)), i.e. it is normalized to order p-1.", "quantifier": "all accepted alpha, all even p >= 2, all boundary values", "why_tests_cant": "derivatives at every boundary point and every order p are not reachable by sampling", "anchors": ["magpi/r_fun.py:RAlpha", "magpi/r_fun.py:RP"]}
{"id": "C04", "title": "Rho blending only smooths", "statement": "For rho > 0, RhoBlending(rho).conjunction(a,b) <= r0.conjunction(a,b) and disjunction >= r0.disjunction, with equality whenever a^2+b^2 >= rho^2; so a positive conjunction implies both operands positive and a negative disjunction implies both negative; the value is always finite.", "quantifier": "all rho > 0 and all a, b", "why_tests_cant": "continuum of arguments and smoothing factors", "anchors": ["magpi/r_fun.py:RhoBlending"]}
{"id": "C05", "title": "Every RP accepted by the constructor is an R-function", "statement": "Every RP(p) that passes the constructor's check `p % 2 == 0` evaluates without error and has sign-correct conjunction/disjunction.", "quantifier": "all integers p accepted by the constructor", "why_tests_cant": "the constructor accepts infinitely many p; tests use 2 and 4 only", "anchors": ["magpi/r_fun.py:RP.__init__"]}
{"id": "C06", "title": "Cuboid ADF is the membership function of the box", "statement": "cuboid(edge_lengths, centering, r_system)(x) is > 0 iff x is strictly inside the box in every coordinate, 0 iff x is on the boundary, < 0 iff x is outside, for every dimension and every sign-correct R-system; cube(l) behaves as the box with all edges l in whatever dimension x has.", "quantifier": "all dimensions, edge lengths, centering flags, R-systems and points", "why_tests_cant": "all dimensions and all points", "anchors": ["magpi/r_fun.py:cuboid", "magpi/r_fun.py:cube", "magpi/r_fun.py:compose"]}
{"id": "C07", "title": "Sphere, cylinder, ellipsoid ADFs", "statement": "For r > 0, sphere(r)(x) has the sign of r - |x| in every dimension, cylinder(r) depends on the first two coordinates only and has the sign of r minus their norm, and ellipsoid(axes) with positive axes is >0, =0, <0 exactly inside, on and outside the ellipsoid sum (x_i/a_i)^2 = 1. The gradient of sphere(r) has norm 1 at every boundary point.", "quantifier": "all radii, axes, dimensions and points", "why_tests_cant": "continuum of radii, dimensions and points", "anchors": ["magpi/r_fun.py:sphere", "magpi/r_fun.py:cylinder", "magpi/r_fun.py:ellipsoid"]}
{"id": "C08", "title": "translate and rotate2d move the described set", "statement": "translate(adf,y) at x+y equals adf at x; rotate2d(adf,angle,o) evaluated at the point obtained by rotating x counter-clockwise by angle around o equals adf(x); consequently composing translations adds the offsets and composing rotations around the same centre adds the angles.", "quantifier": "all ADFs, offsets, angles, centres and points", "why_tests_cant": "functional equality over all ADFs and points", "anchors": ["magpi/r_fun.py:translate", "magpi/r_fun.py:rotate2d"]}
{"id": "C09", "title": "rotate3d rotates the described set", "statement": "rotate3d(adf, angle, axis, o) with a unit axis describes the set rotated by `angle` around the axis in the same (counter-clockwise, right-hand) direction as rotate2d; rotate3d about the z axis of a set and rotate2d of its cross-section agree.", "quantifier": "all ADFs, angles, unit axes, centres and points", "why_tests_cant": "direction conventions must agree for every angle", "anchors": ["magpi/r_fun.py:rotate3d", "magpi/quaternions.py:from_axis_angle", "magpi/quaternions.py:quaternion_rotation"]}
{"id": "C10", "title": "scale preserves membership and first-order normalization", "statement": "For s > 0, scale(adf,s) at s*x is s*adf(x), so signs are preserved and the gradient of scale(adf,s) at s*x equals the gradient of adf at x; scale_without_normalization(adf,s) at s*x equals adf(x). Non-scalar factors are rejected by scale.", "quantifier": "all ADFs, scaling factors and points", "why_tests_cant": "all ADFs and factors", "anchors": ["magpi/r_fun.py:scale", "magpi/r_fun.py:scale_without_normalization"]}
{"id": "C11", "title": "reflect is an isometric involution of the described set", "statement": "For a non-zero normal vector (any length) reflect(adf,n,o) at the mirror image of x in the plane through o equals adf(x); reflecting twice gives back the ADF; points of the plane are fixed.", "quantifier": "all ADFs, non-zero normals, origins, dimensions and points", "why_tests_cant": "all dimensions and ADFs", "anchors": ["magpi/r_fun.py:reflect"]}
{"id": "C12", "title": "project and revolution are invariant along the swept direction", "statement": "project(adf,n,o) takes the same value at x and x + t n for every t and equals adf on the plane through o; revolution(adf, axis) takes the same value at all points of a circle around the x axis (axis=0) resp. y axis (axis=1), equals the 2d ADF on the half plane, and any other axis raises ValueError.", "quantifier": "all ADFs, normals, points, real t and axis values", "why_tests_cant": "invariance over a continuum", "anchors": ["magpi/r_fun.py:project", "magpi/r_fun.py:revolution"]}
{"id": "C13", "title": "normalize_1st_order", "statement": "Where adf or its gradient is non-zero, normalize_1st_order(adf)(x) is defined, has the sign of adf(x) and lies in [-1,1]; at a boundary point with non-vanishing gradient its derivative in the direction of the unit gradient is 1 (first-order normalized).", "quantifier": "all differentiable ADFs and all points", "why_tests_cant": "all ADFs", "anchors": ["magpi/r_fun.py:normalize_1st_order"]}
{"id": "C14", "title": "compose is an n-ary reduction of all operands", "statement": "compose(op)(adf_1,...,adf_n) applied to x left-folds op over the concatenation of all operand values, in order; with a sign-correct conjunction the result is >0 iff every operand value is >0 and <0 iff some operand value is <0. No operand at all is an error.", "quantifier": "any number of operands, any values", "why_tests_cant": "unbounded number of operands", "anchors": ["magpi/r_fun.py:compose"]}
{"id": "C15", "title": "rotate3d argument validation", "statement": "rotate3d raises ValueError exactly when a scalar angle comes without axis, or three Euler angles come with an axis, or the angle has any other shape; rotating a point whose dimension is not 3 (2 for rotate2d) is an AssertionError and never a silent wrong value.", "quantifier": "all angle shapes and axis options", "why_tests_cant": "all argument shapes", "anchors": ["magpi/r_fun.py:rotate3d", "magpi/r_fun.py:rotate2d"]}
{"id": "C16", "title": "Quaternion algebra laws", "statement": "Quaternion multiplication is associative, distributes over addition and subtraction, satisfies Hamilton's table i^2=j^2=k^2=ijk=-1, |pq|=|p||q|, conj(pq)=conj(q)conj(p); every non-zero quaternion has reciprocal() as two-sided inverse; right and left division undo right and left multiplication.", "quantifier": "all quaternions", "why_tests_cant": "algebraic laws over R^4", "anchors": ["magpi/quaternions.py:Quaternion", "magpi/quaternions.py:quaternion_right_div", "magpi/quaternions.py:quaternion_left_div"]}
{"id": "C17", "title": "Mixed scalar/quaternion subtraction", "statement": "Scalar operations commute with swapping sides as arithmetic demands: s + q = q + s, s * q = q * s and s - q = -(q - s).", "quantifier": "all scalars and quaternions", "why_tests_cant": "operator overloading on the reflected side is not covered by tests", "anchors": ["magpi/quaternions.py:Quaternion.__radd__", "magpi/quaternions.py:Quaternion.__rsub__", "magpi/quaternions.py:Quaternion.__rmul__"]}
{"id": "C18", "title": "quaternion_rotation is a rotation", "statement": "For every non-zero q, x -> quaternion_rotation(x,q) is linear, preserves dot products and cross products (hence lengths, angles and orientation), is unchanged when q is multiplied by a non-zero scalar, is undone by the reciprocal, and rotating by q1 and then q2 is rotating by q1*q2.", "quantifier": "all vectors and non-zero quaternions", "why_tests_cant": "laws over all vectors and quaternions", "anchors": ["magpi/quaternions.py:quaternion_rotation"]}
{"id": "C19", "title": "Axis-angle and Euler constructors", "statement": "from_axis_angle(angle, axis) with a unit axis is a unit quaternion and quaternion_rotation by it is Rodrigues' rotation about the axis by -angle; from_euler_angles is always a unit quaternion and is the product of the three elementary rotations about z, y, x.", "quantifier": "all angles and axes", "why_tests_cant": "trigonometric identity for all angles and axes", "anchors": ["magpi/quaternions.py:from_axis_angle", "magpi/quaternions.py:from_euler_angles"]}
{"id": "C20", "title": "quaternion_reflection is the mirror map", "statement": "For every non-zero normal vector, quaternion_reflection(x,n) = x - 2 (x.n)/(n.n) n, for every length of n.", "quantifier": "all vectors and non-zero normals", "why_tests_cant": "identity over all vectors", "anchors": ["magpi/quaternions.py:quaternion_reflection"]}
{"id": "C21", "title": "Quaternion exp, log and powers", "statement": "exp(log q) = q for every q whose imaginary part and angle exceed the sgn threshold (the machine epsilon below which sgn treats a vector as 0), log(exp q) = q when |imag| < pi and the imaginary parts of q and exp q exceed the threshold, |exp q| = e^real when the imaginary part is 0 or above the threshold, and q ** n is the n-fold product q*...*q for every natural n.", "quantifier": "all such quaternions and all n", "why_tests_cant": "unbounded exponent and continuum of quaternions", "anchors": ["magpi/quaternions.py:quanternion_exp", "magpi/quaternions.py:quanternion_log", "magpi/quaternions.py:Quaternion.__pow__", "magpi/quaternions.py:sgn", "magpi/quaternions.py:arg"]}
{"id": "C22", "title": "exp inverts log on negative reals too", "statement": "exp(log q) = q for every non-zero quaternion, including the negative reals, and (-1)**1 = -1.", "quantifier": "all non-zero quaternions", "why_tests_cant": "boundary of the branch cut", "anchors": ["magpi/quaternions.py:quanternion_log", "magpi/quaternions.py:sgn"]}
{"id": "C23", "title": "Hypercube.transform maps the unit cube onto the box", "statement": "For lb <= ub every sample in [0,1]^d (and every sample with non-negative coordinates, which are wrapped modulo 1 when above 1) is mapped into the closed box; restricted to [0,1]^d the map is onto, is one-to-one when lb < ub, and is affine in each coordinate, so uniform samples stay uniform; includes() is True for the image.", "quantifier": "all dimensions, bounds and samples", "why_tests_cant": "all dimensions and points", "anchors": ["magpi/domain.py:Hypercube.transform", "magpi/domain.py:transform_hypercube", "magpi/domain.py:Hypercube.includes"]}
{"id": "C24", "title": "Hypercube.transform_bnd samples the boundary proportionally to face area", "statement": "For every sample the image is on the boundary of the box (in the box with at least one coordinate equal to lb or ub); every boundary point that is not on an upper edge of its face is reached; the set of first coordinates that select face i is an interval of length area_i/total area.", "quantifier": "all dimensions >= 2, all lb < ub and all samples", "why_tests_cant": "all dimensions and the continuum of samples", "anchors": ["magpi/domain.py:Hypercube.transform_bnd", "magpi/domain.py:transform_hypercube_bnd"]}
{"id": "C25", "title": "Hypercube.normal_vec is the outward unit normal", "statement": "For every point on the boundary of the hypercube normal_vec returns a unit outward normal of a face containing the point, for points not on the boundary it returns None, and for a batch it does so point by point.", "quantifier": "all dimensions, bounds, boundary points and batches", "why_tests_cant": "corner and edge configurations grow exponentially with the dimension", "anchors": ["magpi/domain.py:Hypercube.normal_vec"]}
{"id": "C26", "title": "Disk, Annulus and Sphere transforms land inside and are measure preserving", "statement": "Disk/Annulus/Sphere.transform(x) lies within the region (distance from origin in [r1,r2), < r) for every sample, Disk/Sphere.includes() of the image is True for r > 0, and the fraction of area (volume) within the radius of the image equals the corresponding sample coordinate, i.e. uniform samples stay uniform.", "quantifier": "all radii, origins and samples", "why_tests_cant": "continuum of samples", "anchors": ["magpi/domain.py:transform_annulus", "magpi/domain.py:transform_circle", "magpi/domain.py:transform_sphere", "magpi/domain.py:_Spherical.includes"]}
{"id": "C27", "title": "Sphere and Disk boundary transforms", "statement": "transform_bnd(x) has distance exactly r from the origin for every sample, every boundary point is reached, and normal_vec of the image is the outward unit normal (image - origin)/r.", "quantifier": "all radii, origins and samples", "why_tests_cant": "continuum of samples", "anchors": ["magpi/domain.py:transform_sphere_bnd", "magpi/domain.py:transform_circle_bnd", "magpi/domain.py:_Spherical.normal_vec"]}
{"id": "C28", "title": "Disk.transform_bnd is one-to-one on [0,1)", "statement": "Different samples in [0,1) are mapped by Disk.transform_bnd to different boundary points.", "quantifier": "all pairs of samples", "why_tests_cant": "a test would have to compare pairs half a period apart", "anchors": ["magpi/domain.py:transform_circle_bnd"]}
{"id": "C29", "title": "Spherical normal_vec works on batches", "statement": "Sphere/Disk.normal_vec of a batch of k boundary points returns the k outward unit normals for every k.", "quantifier": "all batch sizes", "why_tests_cant": "all batch sizes", "anchors": ["magpi/domain.py:_Spherical.normal_vec"]}
{"id": "C30", "title": "Parallelogram.transform, support and affine_plane", "statement": "affine_plane(a,b,c) returns the unique (B, offset) with B(0,0)+offset=a, B(1,0)+offset=b, B(0,1)+offset=c; Parallelogram.transform(s,t) = a + s(b-a) + t(c-a) on [0,1]^2; support() is the area |(b-a) x (c-a)| (in 3d), in every dimension it squares to the Gram determinant and is real.", "quantifier": "all points a,b,c of every dimension", "why_tests_cant": "all dimensions", "anchors": ["magpi/domain.py:Parallelogram", "magpi/domain.py:affine_plane", "magpi/domain.py:linear_map"]}
{"id": "C31", "title": "Parallelogram.transform_bnd runs along the boundary of the parallelogram", "statement": "For all a,b,c the image of transform_bnd consists of boundary points of the parallelogram described by transform (corners a, b, b+c-a, c).", "quantifier": "all a, b, c and samples", "why_tests_cant": "tests only use a = 0", "anchors": ["magpi/domain.py:Parallelogram.transform_bnd"]}
{"id": "C32", "title": "transform_triangle maps into the triangle", "statement": "transform_triangle(x,a,b,c) lies in the triangle abc for every sample and every triangle, and covers it.", "quantifier": "all triangles and samples", "why_tests_cant": "tests only use an axis-aligned triangle", "anchors": ["magpi/domain.py:transform_triangle"]}
{"id": "C33", "title": "transform_polyline is the arc-length parametrization", "statement": "For points with no zero-length first segment and every s, transform_polyline(s, points) is defined and is the point on the polyline at arc length (s mod 1)*length from the first point, for any number of points in any dimension.", "quantifier": "all polylines and samples", "why_tests_cant": "unbounded number of segments", "anchors": ["magpi/domain.py:transform_polyline"]}
{"id": "C34", "title": "Quadrature rules are exact on polynomials for every grid", "statement": "For every list of at least two grid points (not necessarily equidistant or increasing) midpoint and trap integrate every polynomial of degree <= 1, and simpson every polynomial of degree <= 3, exactly over [first, last]; weights therefore sum to last - first, there are as many weights as nodes, and for increasing grids all weights are positive and nodes lie in [first,last].", "quantifier": "all grids of all lengths, all polynomials of the stated degree", "why_tests_cant": "unbounded grids", "anchors": ["magpi/integrate.py:midpoint", "magpi/integrate.py:trap", "magpi/integrate.py:simpson"]}
{"id": "C35", "title": "Composite Gauss rule inherits the exactness of the reference rule", "statement": "If the reference nodes/weights integrate x^k over [-1,1] exactly for k <= K (K = 2*degree-1 for Gauss-Legendre) then gauss(degree) integrates every polynomial of degree <= K exactly over every grid.", "quantifier": "all degrees, grids and polynomials", "why_tests_cant": "unbounded degree and grids", "anchors": ["magpi/integrate.py:gauss"]}
{"id": "C36", "title": "integrate over a product grid is the iterated quadrature", "statement": "integrate(f,[d1,...,dk],method) equals the iterated 1d quadrature sums, for every number of dimensions: it is linear in f, and for f(x) = f1(x1)*...*fk(xk) it is the product of the 1d results; the weight of a node is the product of its 1d weights and coordinates are passed in the order of the domain list.", "quantifier": "all numbers of dimensions, grids and integrands", "why_tests_cant": "unbounded dimension", "anchors": ["magpi/integrate.py:integrate"]}
{"id": "C37", "title": "integrate_disk and integrate_sphere", "statement": "integrate_disk of a constant c is exactly c * (r^2 - r_inner^2)/2 * (phi2 - phi1) for every n >= 2 (pi r^2 c by default); the integrand is evaluated only at points whose distance from o lies between r_inner and r; shifting o is the same as shifting the integrand. integrate_sphere evaluates only points of the ball and weights them by r^2 sin(phi).", "quantifier": "all radii, origins, node numbers and integrands", "why_tests_cant": "all n", "anchors": ["magpi/integrate.py:integrate_disk", "magpi/integrate.py:integrate_sphere"]}
{"id": "C38", "title": "Quadrature is additive over subdivided domains", "statement": "Splitting the grid at any of its nodes and adding the two integrals gives the integral over the whole grid, for midpoint, trap, simpson and gauss, for every integrand.", "quantifier": "all grids, split positions and integrands", "why_tests_cant": "unbounded grids", "anchors": ["magpi/integrate.py:midpoint", "magpi/integrate.py:trap", "magpi/integrate.py:simpson", "magpi/integrate.py:gauss"]}
{"id": "C39", "title": "Quadrature error bound", "statement": "For an increasing grid with largest step h and an integrand with Lipschitz constant L, each rule's result differs from the Riemann integral by at most L*h*(last-first), so the rules converge under refinement.", "quantifier": "all grids and Lipschitz integrands", "why_tests_cant": "convergence is a statement about infinitely many grids", "anchors": ["magpi/integrate.py:midpoint", "magpi/integrate.py:trap", "magpi/integrate.py:simpson", "magpi/integrate.py:integrate"]}
{"id": "C40", "title": "odeint output structure", "statement": "odeint returns len(ts) states, the first is the initial value; the state at index i depends only on ts[0..i] (running on a prefix gives the prefix of the result); restarting at any intermediate state and time continues with the same values.", "quantifier": "all dynamics, methods, time grids", "why_tests_cant": "unbounded number of time steps", "anchors": ["magpi/ode.py:odeint", "magpi/ode.py:_odeint"]}
{"id": "C41", "title": "rk4 and explicit_euler steps", "statement": "One rk4 step is exact when y' = q(t) with q a polynomial of degree <= 3, and multiplies the state of y' = lambda*y by 1+z+z^2/2+z^3/6+z^4/24 (z = lambda dt); explicit_euler multiplies by 1+z; both are exact for constant right-hand sides and leave equilibria unchanged.", "quantifier": "all polynomials, lambdas, step sizes, pytrees", "why_tests_cant": "continuum of right-hand sides", "anchors": ["magpi/ode.py:rk4", "magpi/ode.py:explicit_euler"]}
{"id": "C42", "title": "odeint solves non-autonomous equations on the given time interval", "statement": "For y' = q(t) with q a cubic polynomial, odeint with rk4 on ts returns y0 + integral of q from ts[0] to ts[i] at index i.", "quantifier": "all polynomials and time grids", "why_tests_cant": "tests do not cover ode.py at all", "anchors": ["magpi/ode.py:_odeint"]}
{"id": "C43", "title": "odeint on autonomous equations", "statement": "For dynamics that do not depend on t the result depends only on the step widths, and for y' = lambda*y with lambda <= 0 and |lambda| dt <= 2.5 the discrete solution never grows; the rk4 amplification factor differs from exp(z) by at most |z|^5/100 for |z| <= 1.", "quantifier": "all lambdas, steps and time grids", "why_tests_cant": "continuum of step sizes", "anchors": ["magpi/ode.py:odeint", "magpi/ode.py:rk4"]}
{"id": "C44", "title": "Spline basis: non-negativity and local support", "statement": "For every non-decreasing grid (repeated nodes allowed), degree k and index i, the i-th basis function is >= 0 everywhere and 0 outside [t_i, t_{i+k+1}); all node indices used are within the grid; there are len(grid)-degree-1 functions.", "quantifier": "all grids, degrees, indices and points", "why_tests_cant": "unbounded degree and grids", "anchors": ["magpi/spline.py:_base_fun", "magpi/spline.py:basis"]}
{"id": "C45", "title": "Spline basis: partition of unity", "statement": "For every non-decreasing grid, every degree k with len(grid) >= 2k+2 and every x in [t_k, t_{n}) (n = len(grid)-k-1) the basis functions sum to 1; for x outside of [t_0, t_last) they are all 0.", "quantifier": "all grids, degrees and points", "why_tests_cant": "unbounded degree and grids", "anchors": ["magpi/spline.py:basis"]}
{"id": "C46", "title": "make_grid", "statement": "For start <= stop, power > 0 and num >= 2, make_grid returns num non-decreasing nodes from start to stop exactly, symmetric about the centre, strictly increasing if start < stop.", "quantifier": "all bounds, powers and sizes", "why_tests_cant": "unbounded sizes and continuum of powers", "anchors": ["magpi/spline.py:make_grid"]}
{"id": "C47", "title": "make_grid covers the interval for either order of bounds", "statement": "make_grid(start, stop, ...) begins at start and ends at stop for all start, stop.", "quantifier": "all bounds", "why_tests_cant": "tests only use start < stop", "anchors": ["magpi/spline.py:make_grid"]}
{"id": "C48", "title": "SplineActivation perturbs the base activation only on the grid", "statement": "SplineActivation(x) equals activation(x) for x outside of [node_min,node_max) and whenever the coefficients are 0 (the default initialization); it differs from activation(x) by at most max|coef|; inside the fully supported interval constant coefficients c shift the activation by exactly c.", "quantifier": "all nodes, degrees, coefficients and inputs", "why_tests_cant": "unbounded sizes", "anchors": ["magpi/spline.py:SplineActivation"]}
{"id": "C49", "title": "Steihaug-CG stays in the trust region", "statement": "For every gradient (pytree of any shape), every Hessian-vector callback (even a nonlinear finite-difference one), tr_radius > 0, eps > 0 and iteration limit, the returned step is finite and satisfies |p| <= tr_radius, step_length = |p|, and |p| = tr_radius when the loop stopped because of non-positive curvature or because it hit the boundary.", "quantifier": "all gradients, callbacks, radii, tolerances, iteration counts", "why_tests_cant": "loop invariant over unboundedly many iterations", "anchors": ["magpi/tr.py:steihaug"]}
{"id": "C50", "title": "Steihaug-CG decreases the quadratic model", "statement": "For a linear symmetric hvp and gradient norm >= eps > 0, with at least one iteration allowed, the returned p satisfies g.p + p.Hp/2 < 0, and is at least as good as the best step along the steepest descent direction within the trust region (Cauchy decrease); residual bookkeeping r = g + H p holds whenever the loop ended inside the region.", "quantifier": "all gradients, symmetric operators, radii, iteration counts, dimensions", "why_tests_cant": "loop invariant over unboundedly many iterations", "anchors": ["magpi/tr.py:steihaug"]}
{"id": "C51", "title": "TR accepts only actual improvements", "statement": "When the current gradient norm is above tol > 0 (Hessian symmetric, damping_factor None or >= 0, maxiter_steihaug None or >= 1), update either keeps the parameters, or moves them and then the objective strictly decreases: f(new) <= f(old) - rho_accept * predicted, predicted > 0. Along any number of updates the objective value never increases.", "quantifier": "all objectives, parameters, solver options and histories", "why_tests_cant": "history property over unboundedly many updates", "anchors": ["magpi/tr.py:TR.update", "magpi/tr.py:steihaug"]}
{"id": "C52", "title": "TR radius stays within bounds", "statement": "With 0 < min <= init <= max, increase_factor >= 1, 0 < decrease_factor <= 1, the trust-region radius of every state reached by init_state and any number of updates stays in [min_tr_radius, max_tr_radius].", "quantifier": "all histories of updates, objectives and options", "why_tests_cant": "invariant over all histories", "anchors": ["magpi/tr.py:update_tr_radius", "magpi/tr.py:TR.update", "magpi/tr.py:TR.init_state"]}
{"id": "C53", "title": "A rejected step shrinks the radius", "statement": "Whenever update rejects a step the next radius is decrease_factor * radius (clipped below at min_tr_radius), thanks to the constructor's check rho_accept <= rho_decrease; so at most log(radius/min)/log(1/decrease_factor) + 1 rejections can follow each other before the solver freezes.", "quantifier": "all finite ratios and option values", "why_tests_cant": "all histories", "anchors": ["magpi/tr.py:update_tr_radius", "magpi/tr.py:TR.__post_init__", "magpi/tr.py:TR.update"]}
{"id": "C54", "title": "A step to a non-finite objective value shrinks the radius", "statement": "If the objective at the trial point is nan, the step is rejected and the radius is decreased so that the next trial is different.", "quantifier": "all states", "why_tests_cant": "nan handling is not tested", "anchors": ["magpi/tr.py:TR.update", "magpi/tr.py:update_tr_radius"]}
{"id": "C55", "title": "TR state describes the returned parameters", "statement": "After init_state and after every update the state's value, grad, aux and error are the objective, gradient, auxiliary output and gradient norm at the returned parameters, and iter_num counts the updates except that nothing at all changes any more once the radius is at or below min_tr_radius.", "quantifier": "all histories", "why_tests_cant": "invariant over all histories", "anchors": ["magpi/tr.py:TR.update", "magpi/tr.py:TR.init_state"]}
{"id": "C56", "title": "Inner tolerance of TR", "statement": "The inner tolerance used in every update lies in [tol, max(tol, half the gradient norm)], never increases from one update to the next while above tol, and is strictly smaller than or equal to the gradient norm when that is at least tol, so the inner loop performs at least one iteration whenever the solver is not converged.", "quantifier": "all histories", "why_tests_cant": "invariant over all histories", "anchors": ["magpi/tr.py:TR.update"]}
{"id": "C57", "title": "TR construction and warm start", "statement": "Constructing TR with rho_accept > rho_decrease raises ValueError and otherwise succeeds; init_state from a previous step keeps iter_num and the radius unless the radius is at or below the minimum, in which case it is reset to init_tr_radius.", "quantifier": "all options and previous states", "why_tests_cant": "all options", "anchors": ["magpi/tr.py:TR.__post_init__", "magpi/tr.py:TR.init_state"]}
{"id": "C58", "title": "batches_without_replacement", "statement": "For every dataset size N, batch size b >= 1 and random permutation, the result has N // b batches of exactly b rows, each row of the data occurs at most once over all batches (exactly once if b divides N), all rows come from the data, and rows of different leaves of the pytree stay aligned. Leaves of different lengths raise an AssertionError.", "quantifier": "all datasets, batch sizes and permutations", "why_tests_cant": "all permutations", "anchors": ["magpi/opt.py:batches_without_replacement", "magpi/opt.py:axis_size"]}
{"id": "C59", "title": "batches_with_replacement", "statement": "The result has the requested number of batches with the requested size, all rows come from the data and stay aligned across leaves, and with replace_within_batch=False no batch contains a data row twice.", "quantifier": "all datasets, sizes and random draws", "why_tests_cant": "all random draws", "anchors": ["magpi/opt.py:batches_with_replacement"]}
{"id": "C60", "title": "make_iterator", "statement": "make_iterator yields, epoch by epoch, exactly the batches produced by batch_fn in order (epochs * batches items when batch_fn is uniform); no random key is used twice: the keys passed to batch_fn and the keys handed out with add_rng are pairwise distinct derivations of the seed key and none of them is also split again.", "quantifier": "all numbers of epochs and batches", "why_tests_cant": "unbounded number of epochs; key reuse is invisible to tests", "anchors": ["magpi/opt.py:make_iterator"]}
{"id": "C61", "title": "rejection_sampling returns only accepted proposals", "statement": "Every returned sample was produced by sample_fn and accepted: its uniform draw u satisfies u <= pdf(sample)/m, so for a real-valued density and m > 0 its density is non-negative, and positive when u > 0; n samples are returned; samples use pairwise distinct random keys.", "quantifier": "all densities, proposals, keys and numbers of iterations", "why_tests_cant": "unbounded rejection loop", "anchors": ["magpi/sampling.py:rejection_sampling"]}
{"id": "C62", "title": "rejection_sampling never returns a sample of zero or undefined density", "statement": "A sample whose density is 0 or nan is never returned.", "quantifier": "all densities and draws", "why_tests_cant": "the events have tiny probability", "anchors": ["magpi/sampling.py:rejection_sampling"]}
{"id": "C63", "title": "rejection_sampling has the target distribution", "statement": "If proposals are uniform over a finite set and 0 <= pdf <= m with positive total mass, the probability that value v is returned within k rounds is proportional to pdf(v) for every k, and tends to pdf(v)/sum(pdf) as k grows. For any proposal distribution the probability of returning an element of an event B tends to mean(pdf*1_B)/mean(pdf); for uniform proposals on an interval the distribution function is the normalised integral of pdf.", "quantifier": "all proposal sets and distributions, densities, events, k", "why_tests_cant": "probability statement", "anchors": ["magpi/sampling.py:rejection_sampling"]}
{"id": "C64", "title": "impose_dirichlet_bc is exact", "statement": "Wherever the ADF vanishes the constrained model equals g (0 if g is not given) whatever the free model is; elsewhere it is adf*model + g; argnums select which positional arguments go to adf and g; decorator and direct form agree.", "quantifier": "all models, ADFs, boundary data, argument selections", "why_tests_cant": "all models", "anchors": ["magpi/model.py:impose_dirichlet_bc"]}
{"id": "C65", "title": "impose_neumann_bc is exact", "statement": "At a boundary point where the ADF is first-order normalized (gradient norm 1), the derivative of the constrained model along the outward normal equals h (0 if h is not given) for every differentiable free model with continuous normal derivative; the boundary value of the model itself is unchanged.", "quantifier": "all models, ADFs and boundary data", "why_tests_cant": "all models", "anchors": ["magpi/model.py:impose_neumann_bc"]}
{"id": "C66", "title": "impose_ic", "statement": "At t = t0 the constrained model equals m0 whatever the free model is; for decay_rate >= 0 and t >= t0 it is a convex combination of m0 and the free model and tends to the free model as t grows (decay_rate > 0, bounded free model).", "quantifier": "all models, times and decay rates", "why_tests_cant": "all models and limit behaviour", "anchors": ["magpi/model.py:impose_ic"]}
{"id": "C67", "title": "derivative operator selects the right partial derivative", "statement": "derivative(i)(f) is the partial derivative of f with respect to positional argument i, derivative([i,j,...]) the iterated partial derivatives (independent of the order for smooth f), derivative(['name']) the one of that argument, derivative([k], argnums=j) the k-th partial derivative of vector argument j.", "quantifier": "all functions, argument counts and index lists", "why_tests_cant": "all functions and index lists", "anchors": ["magpi/calc.py:derivative", "magpi/calc.py:value_and_derivative"]}
{"id": "C68", "title": "derivative rejects or honours every selector", "statement": "A selector that names an existing parameter of f yields the derivative with respect to that parameter, and one that does not (index out of range) raises an error.", "quantifier": "all selectors: negative indices, out of range indices, multi-letter names, keyword arguments", "why_tests_cant": "selectors outside the tested ones", "anchors": ["magpi/calc.py:derivative", "magpi/calc.py:value_and_derivative"]}
{"id": "C69", "title": "laplace, divergence and curl are the differential operators", "statement": "divergence is the sum of d f_i/d x_i, curl (2d and 3d) the usual combination and laplace the sum of second derivatives in every dimension; for twice continuously differentiable fields divergence(curl F) = 0, curl(grad f) = 0 and laplace f = divergence(grad f); curl raises ValueError in dimensions other than 2 and 3.", "quantifier": "all smooth fields and points", "why_tests_cant": "all smooth fields", "anchors": ["magpi/calc.py:laplace", "magpi/calc.py:hessian_diag", "magpi/calc.py:divergence", "magpi/calc.py:value_and_divergence", "magpi/calc.py:curl3d", "magpi/calc.py:curl2d"]}
{"id": "C70", "title": "Hessian-vector products agree", "statement": "hvp, hvp_forward_over_reverse (alpha adds alpha*v) and hvp_reverse_over_reverse compute the same vector, linear in v, for twice continuously differentiable functions; value_grad_hvp returns the value, gradient, that product and aux of the function for all four combinations of value_and_grad and has_aux.", "quantifier": "all smooth functions, vectors, flags", "why_tests_cant": "all functions and flags", "anchors": ["magpi/calc.py:hvp", "magpi/calc.py:hvp_forward_over_reverse", "magpi/calc.py:hvp_reverse_over_reverse", "magpi/calc.py:value_grad_hvp"]}
{"id": "C71", "title": "Surface integrals add up over elements", "statement": "The sum over all elements of integrate_surface_elements of an integrand that ignores the element centre equals integrate_surface over the whole grid; element centres are the images of the parameter midpoints.", "quantifier": "all parametrizations, grids and integrands", "why_tests_cant": "unbounded grids", "anchors": ["magpi/surface_integral.py:integrate_surface", "magpi/surface_integral.py:integrate_surface_elements", "magpi/surface_integral.py:center", "magpi/surface_integral.py:midpoints"]}
{"id": "C72", "title": "single_layer_potential contracts matching Taylor terms", "statement": "Contracting charge_tensor with source_tensor pairs every Taylor coefficient of the charge with the matching moment of the same element: for a charge that is a polynomial of degree <= order the result equals 1/(4 pi) times the quadrature of f(y)/|x-y| over the surface; the flattened orders of elements and multi-indices agree.", "quantifier": "all grids, orders 0..2, polynomials, targets", "why_tests_cant": "index conventions for all grids", "anchors": ["magpi/surface_integral.py:_source_tensor", "magpi/surface_integral.py:charge_tensor", "magpi/surface_integral.py:single_layer_potential"]}
{"id": "C73", "title": "normalized and unnormalized potential charges agree", "statement": "On the boundary, for a normalized ADF, scalar_potential_charge(adf, mag, phi, normalized=True) equals scalar_potential_charge(adf, mag, adf*phi, normalized=False), and likewise for vector_potential_charge; the charge does not depend on rescaling the ADF by a positive factor in the unnormalized case.", "quantifier": "all magnetizations, potentials and boundary points", "why_tests_cant": "all models", "anchors": ["magpi/surface_integral.py:scalar_potential_charge", "magpi/surface_integral.py:vector_potential_charge"]}
{"id": "C74", "title": "curl_single_layer_potential is the curl of single_layer_potential", "statement": "For a vector charge, curl_single_layer_potential(d source, charge) equals the curl (with respect to the target point) of single_layer_potential(source, charge).", "quantifier": "all sources and charges", "why_tests_cant": "index and sign conventions for all inputs", "anchors": ["magpi/surface_integral.py:curl_single_layer_potential", "magpi/surface_integral.py:single_layer_potential"]}
{"id": "C75", "title": "make_funs_with_aux normalizes the objective", "statement": "For all four combinations of value_and_grad and has_aux, the three returned functions report the same value, aux (None when has_aux is False) and gradient of the user's objective.", "quantifier": "all objectives and flags", "why_tests_cant": "all objectives", "anchors": ["magpi/utils.py:make_funs_with_aux"]}
{"id": "C76", "title": "MLP shapes and forward pass", "statement": "mlp(key, [n0,...,nk]) maps an input of n0 features to nk outputs (a scalar when nk = 1) as alternating affine maps and activations, with no activation after the last layer; a layer list without output layer is an error; inputs of a different size are rejected.", "quantifier": "all layer lists and inputs", "why_tests_cant": "unbounded layer lists", "anchors": ["magpi/model.py:MLP", "magpi/model.py:mlp"]}
{"id": "C77", "title": "Scalar to a quaternion power", "statement": "For base > 0, base ** q is finite and has absolute value base ** real(q) (imaginary part zero or large enough not to be treated as zero by sgn).", "quantifier": "all bases and quaternions", "why_tests_cant": "continuum of inputs", "anchors": ["magpi/quaternions.py:Quaternion.__rpow__", "magpi/quaternions.py:quanternion_exp"]}
{"id": "C78", "title": "Disk, Annulus and Sphere transforms have constant Jacobian", "statement": "At every sample with coordinates strictly between 0 and 1, Disk/Annulus/Sphere.transform is differentiable and the modulus of its Jacobian determinant is the constant support(); the surface element of Sphere.transform_bnd is the constant 4 pi r^2. So uniform samples are mapped to uniform samples.", "quantifier": "all radii, origins and samples", "why_tests_cant": "a density statement at every point of a continuum", "anchors": ["magpi/domain.py:transform_annulus", "magpi/domain.py:transform_sphere", "magpi/domain.py:transform_sphere_bnd", "magpi/domain.py:Disk.support", "magpi/domain.py:Annulus.support", "magpi/domain.py:Sphere.support"]}
{"id": "C79", "title": "Spline basis: polynomial reproduction and smoothness", "statement": "For every non-decreasing grid and x in [t_k, t_n) Marsden's identity holds, i.e. (y-x)^k is the combination of the basis functions with coefficients prod_j (y - t_{i+j}) and x is the combination with the mean node values. On strictly increasing grids the functions of degree >= 1 are continuous and those of degree >= 2 have the derivative k*(B_{i,k-1}/(t_{i+k}-t_i) - B_{i+1,k-1}/(t_{i+k+1}-t_{i+1})) everywhere, including the nodes.", "quantifier": "all grids, degrees, indices and points", "why_tests_cant": "unbounded degree and grids, continuum of points", "anchors": ["magpi/spline.py:_base_fun", "magpi/spline.py:basis"]}
{"id": "C80", "title": "Steihaug-CG ends after at most n iterations", "statement": "For a symmetric Hessian-vector callback on n unknowns the loop performs at most n iterations, so with the default iteration limit 10*n the result is always marked converged; a larger iteration limit never gives a shorter step.", "quantifier": "all gradients, symmetric operators, radii, tolerances, dimensions", "why_tests_cant": "unbounded dimension; exact arithmetic", "anchors": ["magpi/tr.py:steihaug"]}
{"id": "C81", "title": "tree_dim and tree_single_dtype", "statement": "tree_dim returns n exactly when the pytree has a leaf and all leaves have n rows, as axis_size does; leaves of different sizes or an empty tree raise AssertionError. tree_single_dtype returns None without array leaves, the common dtype if there is one, and raises ValueError exactly when two dtypes differ.", "quantifier": "all pytrees", "why_tests_cant": "unbounded number of leaves", "anchors": ["magpi/utils.py:tree_dim", "magpi/utils.py:tree_single_dtype"]}
{"id": "C82", "title": "Negative argument numbers of the impose functions", "statement": "In impose_dirichlet_bc, impose_neumann_bc and impose_ic a negative argument number selects from the end like the corresponding non-negative one, for argnums_adf, argnums_g, argnums_h, argnums_m0, argnum_t and argnum_model.", "quantifier": "all argument lists and numbers", "why_tests_cant": "all argument lists", "anchors": ["magpi/model.py:impose_dirichlet_bc", "magpi/model.py:impose_neumann_bc", "magpi/model.py:impose_ic"]}
{"id": "C83", "title": "single_layer_potential keeps the axes of the charge", "statement": "The potential computed from the charge_tensor of a charge function has the same shape as the values of the charge function, for scalar, vector and matrix valued charges.", "quantifier": "all shapes, orders, grids", "why_tests_cant": "unbounded shapes", "anchors": ["magpi/surface_integral.py:charge_tensor", "magpi/surface_integral.py:single_layer_potential"]}
{"id": "C84", "title": "Cayley rotation", "statement": "cayley_rotation(p, x) is defined for every p and x of length 3 and is the unique y with y - p x y = x + p x x. It preserves inner products and vector products, is linear, keeps p fixed, is undone by -p, and for p = tan(t/2) n with a unit vector n it is the right-handed rotation by t about n. A parameter of another length raises AssertionError.", "quantifier": "all p, x", "why_tests_cant": "continuum of axes, angles and vectors", "anchors": ["examples/mumag3.py:cayley_rotation", "examples/mumag3.py:to_skew_simmetric_matrix"]}
{"id": "C85", "title": "Cuboid of mumag3: construction, normalization, adf", "statement": "Cuboid(xs, ys, zs) accepts exactly the grids with at least two points in non-decreasing order, else AssertionError. normalize maps the box affinely onto [-1,1]^3 (non-finite if an edge has length zero). adf is positive inside, zero on the boundary and negative outside the box.", "quantifier": "all grids and points", "why_tests_cant": "continuum of grids and points", "anchors": ["examples/mumag3.py:Cuboid", "examples/mumag3.py:Cuboid.normalize", "examples/mumag3.py:Cuboid.adf"]}
{"id": "C86", "title": "Cuboid normals", "statement": "Cuboid.normal_vec returns the outward unit normal at every point in the interior of a side, for one point and for batches of points.", "quantifier": "all boxes, sides, points and batch sizes", "why_tests_cant": "derivative of the adf at every boundary point", "anchors": ["examples/mumag3.py:Cuboid.normal_vec", "examples/mumag3.py:Cuboid._normal_vec"]}
{"id": "C87", "title": "Cuboid faces", "statement": "A Cuboid has exactly the six faces of the box, with the two free axes in ascending order, the constant coordinate at the lower and upper bound, and midpoints that are the middles of the grid cells on the face.", "quantifier": "all grids", "why_tests_cant": "unbounded grids", "anchors": ["examples/mumag3.py:_faces", "examples/mumag3.py:_midpoints", "examples/mumag3.py:Face"]}
{"id": "C88", "title": "Surface integral and potential of the Cuboid", "statement": "surface_integral(domain, f, subintervals=n, method) evaluated off the surface is the sum over the six sides and all their cells of the product quadrature (cells divided n times) of T(y)/|x-y|, T being the quadratic Taylor polynomial of f in the face at the middle of the cell; single_layer_potential is that divided by 4 pi. For quadratic charges T is the charge itself.", "quantifier": "all grids, charges, rules, subdivisions and targets", "why_tests_cant": "unbounded grids; any charge", "anchors": ["examples/mumag3.py:surface_integral", "examples/mumag3.py:single_layer_potential", "examples/mumag3.py:integrate_surface", "examples/mumag3.py:charge_taylor_coefs2", "examples/mumag3.py:integrate_face"]}
{"id": "C89", "title": "Both stray field variants agree", "statement": "The field computed with surface_tensors_grad (use_precomputed_grad_tensors=True) equals the field obtained by differentiating the potential, and both are -grad(phi1) - grad(phi2).", "quantifier": "all grids, charges, first potentials and targets off the surface", "why_tests_cant": "equality of two derivative computations at every point", "anchors": ["examples/mumag3.py:create_stray_field_solver", "examples/mumag3.py:surface_tensors_grad", "examples/mumag3.py:solve_sufrace_integral"]}
{"id": "C90", "title": "Default subintervals of the Cuboid integrals", "statement": "surface_integral and single_layer_potential of mumag3.py can be evaluated with their default arguments at every target point off the surface.", "quantifier": "all boxes, charges, targets", "why_tests_cant": "all targets", "anchors": ["examples/mumag3.py:surface_integral", "examples/mumag3.py:single_layer_potential", "examples/mumag3.py:integrate_face"]}
{"id": "C91", "title": "Stray field ansatz", "statement": "phi1 is the adf times the random feature network, so it vanishes on the surface of the box; the charge of phi2 is m.n minus the normal derivative of phi1 in the interior of every side.", "quantifier": "all weights, boxes, magnetizations", "why_tests_cant": "derivatives at every boundary point", "anchors": ["examples/mumag3.py:create_stray_field_solver"]}
{"id": "C92", "title": "support() is the volume", "statement": "Hypercube.support is the iterated integral of 1 over the box; Disk.support the area of the disk (integral of its chord lengths), Sphere.support the volume of the ball (integral of its circular sections), Annulus.support the difference of the areas of its two disks.", "quantifier": "all boxes, radii", "why_tests_cant": "unbounded dimension; continuum of radii", "anchors": ["magpi/domain.py:Hypercube.support", "magpi/domain.py:Disk.support", "magpi/domain.py:Sphere.support", "magpi/domain.py:Annulus.support"]}
{"id": "C93", "title": "Arrays of samples are transformed sample by sample", "statement": "Hypercube, Annulus, Disk, Sphere, Parallelogram, triangle and polyline transforms applied to an array of samples of any leading shape return the array of the transformed samples with the same leading shape; so do Hypercube.transform_bnd, Sphere.transform_bnd and includes (Hypercube.includes per coordinate). All points lie in the domain. The constructors accept scalar radii and 1-d origins only; an origin of the wrong length raises AssertionError in the transforms.", "quantifier": "all leading shapes, samples and domains", "why_tests_cant": "unbounded ranks and sizes", "anchors": ["magpi/domain.py:transform_hypercube", "magpi/domain.py:transform_hypercube_bnd", "magpi/domain.py:transform_annulus", "magpi/domain.py:transform_sphere", "magpi/domain.py:transform_sphere_bnd", "magpi/domain.py:Parallelogram.transform", "magpi/domain.py:transform_polyline", "magpi/domain.py:Sphere", "magpi/domain.py:Disk", "magpi/domain.py:Annulus"]}
{"id": "C94", "title": "Disk.transform_bnd of arrays of samples", "statement": "Disk.transform_bnd maps an array of k samples to the array of shape (k,2) of the transformed samples, for every k.", "quantifier": "all k, samples, disks", "why_tests_cant": "unbounded array sizes", "anchors": ["magpi/domain.py:transform_circle_bnd", "magpi/domain.py:Disk.transform_bnd"]}
{"id": "C95", "title": "Jacobians in both modes", "statement": "value_and_jacfwd and value_and_jacrev return f(args) and the array of all partial derivatives, output axes first, for outputs and arguments of any shape; with a tuple of distinct argument numbers one Jacobian per number; with has_aux the auxiliary data unchanged. Both modes give the same result for every function. Argument numbers out of range raise ValueError.", "quantifier": "all functions, shapes, arguments, argument numbers", "why_tests_cant": "all functions; unbounded ranks and sizes", "anchors": ["magpi/calc.py:value_and_jacfwd", "magpi/calc.py:value_and_jacrev"]}
{"id": "C96", "title": "Divergence of other shapes", "statement": "divergence of a scalar function is the sum of its partial derivatives; of a field R^n -> R^m the sum over the first min(m,n) diagonal entries of the Jacobian; of a matrix field the vector of the divergences of its rows; Jacobians of rank 0 or at least 4 raise ValueError.", "quantifier": "all functions, dimensions, argument numbers", "why_tests_cant": "all functions; unbounded dimensions", "anchors": ["magpi/calc.py:divergence", "magpi/calc.py:value_and_divergence"]}
{"id": "C97", "title": "Operators on flax modules", "statement": "laplace, divergence, curl and derivative of a flax module are those of the function (x, p, ...) -> module.apply(p, x, ...): derivatives in the inputs for argument 0 and in the variables for argument 1, for any list of component or position selectors.", "quantifier": "all modules, variables, inputs, selector lists", "why_tests_cant": "all modules; unbounded selector lists", "anchors": ["magpi/calc.py:apply_to_module", "magpi/calc.py:laplace", "magpi/calc.py:divergence", "magpi/calc.py:curl", "magpi/calc.py:derivative"]}
{"id": "C98", "title": "Parameter names of flax modules", "statement": "In derivative([names])(module) the names x and p select the inputs and the variables in every position of the list.", "quantifier": "all modules called with x, all lists of names", "why_tests_cant": "unbounded lists", "anchors": ["magpi/calc.py:apply_to_module", "magpi/calc.py:derivative"]}
{"id": "C99", "title": "Quaternion as a pytree", "statement": "tree_unflatten(tree_flatten(q)) is q; tree_map of an elementwise function applies it to all four components; children of other shapes raise AssertionError, in particular the stacked leaves of vmap of a function that returns quaternions, for every batch.", "quantifier": "all quaternions, functions, batches", "why_tests_cant": "all values; unbounded batches", "anchors": ["magpi/quaternions.py:Quaternion.tree_flatten", "magpi/quaternions.py:Quaternion.tree_unflatten", "magpi/quaternions.py:Quaternion.__init__"]}
{"id": "C100", "title": "Trust region solver stops after a computable number of updates", "statement": "For an objective bounded below, finite, with bounded curvature, every sequence of TR updates longer than an explicit number (from the objective gap, tol, the radius bounds, rho_accept and decrease_factor) ends in a state whose error is below tol or whose radius is at most min_tr_radius. Any starting point, fresh or warm start.", "quantifier": "all smooth objectives bounded below, all options that allow progress, all starting points", "why_tests_cant": "unbounded dimension and run length", "anchors": ["magpi/tr.py:TR.update", "magpi/tr.py:steihaug", "magpi/tr.py:update_tr_radius"]}
{"id": "C101", "title": "Trust region solver reaches the tolerance", "statement": "If in addition the gradient is Lipschitz and min_tr_radius is below an explicit safe radius, the radius never shrinks to min_tr_radius before convergence, so after that many updates the reported error is the gradient norm at the returned parameters and is below tol.", "quantifier": "all smooth objectives bounded below, all options that allow progress, all starting points", "why_tests_cant": "unbounded dimension and run length", "anchors": ["magpi/tr.py:TR.update", "magpi/tr.py:steihaug", "magpi/tr.py:update_tr_radius"]}
{"id": "C102", "title": "The weights of the first potential are a least squares fit", "statement": "create_stray_field_solver chooses weights that minimise the sum over the points X_dom of (laplace(phi1) - div(m))^2 over all weights, with the least norm among the minimisers, provided the SVD is a singular value decomposition without vanishing singular values; if some weights satisfy the Poisson equation at all points, the fitted ones do. A vanishing singular value gives non-finite weights.", "quantifier": "all boxes, weights, point sets inside the box, magnetizations, singular value decompositions", "why_tests_cant": "minimum over a continuum of weights; unbounded sizes", "anchors": ["examples/mumag3.py:create_stray_field_solver"]}
{"id": "C103", "title": "Stray field solver as a whole", "statement": "The field returned by create_stray_field_solver inside the box is -grad(phi1) - grad(phi2)/(4 pi) in both variants, with phi1 the fitted potential vanishing on the surface and phi2 the quadrature of the expanded charge m.n - d phi1/dn.", "quantifier": "all boxes, weights, point sets, magnetizations, rules, subdivisions, targets inside", "why_tests_cant": "every target; any magnetization", "anchors": ["examples/mumag3.py:create_stray_field_solver", "examples/mumag3.py:surface_tensors_grad"]}
{"id": "C104", "title": "Order of convergence of integrate", "statement": "On a one-dimensional grid with steps at most h, a rule exact for degree K (midpoint, trap: 1; simpson: 3; gauss: the degree of its reference rule) returns the integral of a function with K+1 derivatives up to 2 M/(K+1)! (h/2)^(K+1) (b-a), M bounding the (K+1)-st derivative. For every continuous integrand the result tends to the integral as the steps tend to 0. In k >= 2 dimensions the result differs from the iterated integral of an L-Lipschitz integrand by at most k L h times the volume.", "quantifier": "all rules, grids, integrands, dimensions", "why_tests_cant": "a limit and an inequality over all grids and integrands", "anchors": ["magpi/integrate.py:integrate", "magpi/integrate.py:midpoint", "magpi/integrate.py:trap", "magpi/integrate.py:simpson", "magpi/integrate.py:gauss"]}
{"id": "C105", "title": "Convergence of odeint", "statement": "If df is Lipschitz in state and time and sol solves y' = df(y, t) with slopes at most B, then odeint with explicit_euler, started within e0 of sol(t0), stays at every grid time t within exp(L (t-t0)) (e0 + (L B + Lt) h (t-t0)) of sol(t); with rk4 and L h <= 1/2 the same holds with 4 (L B + Lt). For time dependent df no bound of second order holds for rk4 inside odeint; for df that does not depend on time and has bounded partial derivatives up to order four the error with rk4 is at most exp(N M (t-t0)) (e0 + K h^4 (t-t0)), with N the number of state entries, M the bound and K depending on df and sol only.", "quantifier": "all right-hand sides, solutions, grids with steps at most h, initial states", "why_tests_cant": "exact solutions of arbitrary equations; any number of steps", "anchors": ["magpi/ode.py:odeint", "magpi/ode.py:rk4", "magpi/ode.py:explicit_euler"]}
{"id": "C106", "title": "Integer arguments are treated like the equal floats", "statement": "Quaternion construction, arithmetic, exp, log, powers, rotation, reflection and the from_* constructors, rotate2d, SplineActivation with parameterize_grid=True, the quadrature rules and odeint give for integer arguments the result they give for the equal floating point arguments.", "quantifier": "all integer and float arguments, every combination of dtypes", "why_tests_cant": "tests pass floats; the results depend on the dtype of every argument", "anchors": ["magpi/r_fun.py:rotate2d", "magpi/quaternions.py:Quaternion", "magpi/quaternions.py:quaternion_reflection", "magpi/quaternions.py:sgn", "magpi/spline.py:SplineActivation", "magpi/integrate.py:simpson", "magpi/ode.py:odeint"]}
{"id": "C107", "title": "rejection_sampling takes on average m rounds per sample", "statement": "For a density bounded by m the expected number of rounds (proposal and uniform number) until a sample is accepted is m, as the docstring says.", "quantifier": "all proposal distributions, densities, m", "why_tests_cant": "expectation over unbounded runs", "anchors": ["magpi/sampling.py:rejection_sampling"]}
{"id": "C108", "title": "rejection_sampling with too small m samples the cut-off density", "statement": "If the density exceeds m somewhere, or is negative somewhere, no error is raised: the returned sample follows the density clipped to [0, m], normalised under the proposal distribution, and the expected number of rounds is m divided by the mean of the clipped density.", "quantifier": "all proposal distributions, densities, events, m > 0", "why_tests_cant": "probability statement", "anchors": ["magpi/sampling.py:rejection_sampling"]}
{"id": "C109", "title": "Surface integrals and surface potentials converge", "statement": "integrate_surface with a rule made for polynomials of degree K differs from the exact surface integral by O(h^(K+1)) for smooth integrands on grids with steps at most h. single_layer_potential with an expansion of order n differs from the exact potential (1/4pi) * integral of g/|x-y| by at most a term O(h^(n+1)) from the charge and a term O(h^(K+1)) from the quadrature; the potential of a Cuboid by O(H^3) + O((H/n)^(K+1)) for cells of size H divided n times, with explicit constants.", "quantifier": "all rules of the library, grids, parametrizations, smooth charges, orders, targets off the surface", "why_tests_cant": "limit statement over all grids and smooth functions", "anchors": ["magpi/surface_integral.py:integrate_surface", "magpi/surface_integral.py:single_layer_potential", "examples/mumag3.py:single_layer_potential"]}
{"id": "C110", "title": "Differential operators act leaf by leaf on pytree results", "statement": "laplace, divergence and curl of a function that returns a pytree of arrays return a pytree of the same structure whose leaves are the Laplacians, divergences and curls of the leaves, for leaves of every shape the operator accepts; with a sequence of argument numbers divergence returns a tuple, in the order of the numbers, in place of every leaf. curl raises AssertionError if the last axis of any leaf does not have the dimension of the point and IndexError if a leaf has no axes; divergence raises ValueError if any leaf has more than two axes.", "quantifier": "all functions with results of any structure and number of leaves, all points and argument numbers", "why_tests_cant": "structures and shapes are unbounded, and a wrong leaf only matters in combination with right ones", "anchors": ["magpi/calc.py:laplace", "magpi/calc.py:divergence", "magpi/calc.py:value_and_divergence", "magpi/calc.py:curl", "magpi/calc.py:curl3d", "magpi/calc.py:curl2d", "magpi/calc.py:hessian_diag", "magpi/calc.py:is_2d", "magpi/calc.py:is_3d"]}
{"id": "C111", "title": "Hessian vector products of pytrees", "statement": "For a scalar function of several pytrees of arrays, hvp and hvp_forward_over_reverse return a pytree with the structure and shapes of the first argument whose entries are those rows of the Hessian (with respect to all entries of all arguments) times the tangents, plus alpha times the first tangent; hvp_reverse_over_reverse and value_grad_hvp do the same for one pytree, in all four calling conventions (value_and_grad, has_aux). Tangents of another structure or shape raise TypeError.", "quantifier": "all trees of arrays of any shapes, all twice continuously differentiable functions, all tangents", "why_tests_cant": "unbounded numbers of leaves and axes; an error in the order of leaves or axes is invisible for one leaf", "anchors": ["magpi/calc.py:hvp", "magpi/calc.py:hvp_forward_over_reverse", "magpi/calc.py:hvp_reverse_over_reverse", "magpi/calc.py:value_grad_hvp"]}
{"id": "C112", "title": "TR minimises the user's function", "statement": "For a user function of a pytree of arrays, in any of the four calling conventions, TR evaluates the function value, its gradient and auxiliary value, and Hessian vector products (exact, or difference quotients of the gradient with approx_hvp). If the function is twice continuously differentiable, no number of updates raises its value, and value, gradient, error and aux in the state are those of the function at the returned parameters. If in addition it is bounded below and its curvature is bounded by B, then with min_tr_radius below an explicit threshold the gradient norm at the returned parameters is below tol after an explicit number of updates. With approx_hvp the same holds when the difference quotients are exact (quadratic functions).", "quantifier": "all pytrees of arrays of any shapes, all C2 functions, all starting points, all options in the stated ranges, all numbers of updates", "why_tests_cant": "continuum of functions, unbounded numbers of leaves and updates", "anchors": ["magpi/tr.py:TR.update", "magpi/tr.py:TR.init_state", "magpi/tr.py:TR.__post_init__", "magpi/utils.py:make_funs_with_aux", "magpi/calc.py:value_grad_hvp"]}
{"id": "C113", "title": "TR with difference quotients of the gradient", "statement": "With approx_hvp=True the Hessian vector products of TR differ from the exact ones by at most M |fd_h| / 2 |p|^2 and the predicted reduction by at most M |fd_h| / 4 |p|^3, if the Hessian is Lipschitz with constant M. A step is accepted exactly if the quotient of the actual and the predicted reduction is at least rho_accept. No update increases the objective.", "quantifier": "all pytrees of arrays, all C2 functions, all starting points, radii and options in the stated ranges, all numbers of updates", "why_tests_cant": "continuum of functions and points; the increase needs a function adapted to fd_h", "anchors": ["magpi/tr.py:TR.update", "magpi/tr.py:steihaug"]}
{"id": "C114", "title": "ADFs of composed solids are watertight", "statement": "Take any expression that nests the primitives, transformations and set operations of r_fun. The resulting function is positive exactly inside the solid the expression describes, negative exactly outside, and continuous. Hence every continuous path from inside to outside meets a point with value 0. (rotate3d turns by the negative angle, see C09.)", "quantifier": "all expressions of any size, all dimensions, all points that do not meet the centre of an ellipsoid, all r_alpha systems and all r_p systems with p >= 2", "why_tests_cant": "nesting is unbounded, points and paths form a continuum", "anchors": ["magpi/r_fun.py:compose", "magpi/r_fun.py:cuboid", "magpi/r_fun.py:translate", "magpi/r_fun.py:equivalence"]}
{"id": "C115", "title": "ADFs of composed solids have unit normals", "statement": "Take an expression as in C114 without scale_without_normalization and project. At every boundary point that lies on one face of one primitive only, with all other parts strictly decided (and off the axis of a revolution), the function is 0, differentiable, and its gradient has length 1. A small step along the gradient leads inside, a small step against it leads outside.", "quantifier": "all expressions of any size, all dimensions, all such boundary points, all r_alpha systems and all r_p systems with p >= 2", "why_tests_cant": "nesting is unbounded, boundary points form a continuum", "anchors": ["magpi/r_fun.py:compose", "magpi/r_fun.py:cuboid", "magpi/r_fun.py:revolution", "magpi/r_fun.py:scale"]}
{"id": "C116", "title": "The pacman of examples/pacman.ipynb has the intended shape", "statement": "The ADF built in the notebook is positive exactly in the unit ball without the wedge of the mouth, in the two eyes and in the two balls in front of the mouth, and negative exactly beyond their closures. At every smooth point of the surface (head, lips, eyes, balls) it is 0 with a gradient of length 1.", "quantifier": "all points of space, all sign correct R-systems; for the gradient all r_alpha systems and all r_p systems with p >= 2", "why_tests_cant": "points form a continuum", "anchors": ["examples/pacman.ipynb", "magpi/r_fun.py:compose", "magpi/r_fun.py:difference", "magpi/r_fun.py:union"]}
{"id": "C117", "title": "Hard constraints hold for every network", "statement": "Let f be the ADF of a composed solid. The ansatz g(x) + f(x) * N(x) equals g on the boundary, for every function N. At a smooth boundary point its normal derivative is that of g plus N(x). In particular the ELM of examples/elm_poisson.ipynb vanishes on the boundary of the unit square for all input and output weights.", "quantifier": "all expressions of any size, all dimensions, all boundary points, all functions N (continuous at the point for the derivative), all weights", "why_tests_cant": "functions and boundary points form a continuum", "anchors": ["examples/elm_poisson.ipynb", "magpi/r_fun.py:cube", "magpi/r_fun.py:compose"]}
{"id": "C118", "title": "The ELM fit of examples/elm_poisson.ipynb solves the ridge regression", "statement": "The weights computed by the notebook minimise the sum of the squared residuals of laplace(u) = laplace(solution) at the collocation points plus l2_reg times the squared norm of the weights, and no other weights do. Without regularisation a zero singular value makes the weights nan.", "quantifier": "all collocation points inside the unit square that are no centre of a radial function, all centres, gamma, l2_reg > 0 and solutions, all singular value decompositions that meet their contract", "why_tests_cant": "weights form a continuum", "anchors": ["examples/elm_poisson.ipynb", "magpi/calc.py:laplace", "magpi/r_fun.py:cube"]}
{"id": "C119", "title": "Jacobians and derivatives of functions with pytree results", "statement": "value_and_jacfwd and value_and_jacrev of a function that returns a pytree of arrays return the value and a pytree of the same structure whose leaves are the Jacobians of the leaves, the axes of the argument last; with a sequence of argument numbers there is a tuple, in the order of the numbers, in place of every leaf. derivative, by positions, names or components of vectors, returns a pytree of the same structure and shapes whose entries are the partial or mixed derivatives of the entries.", "quantifier": "all functions with results of any structure, number and shapes of leaves, all arguments of any shape (derivative: 0-d and 1-d arguments), all argument numbers including negative ones, all lists of selectors", "why_tests_cant": "structures, shapes and lists are unbounded; an exchange of leaves or axes is invisible for one leaf", "anchors": ["magpi/calc.py:value_and_jacrev", "magpi/calc.py:value_and_jacfwd", "magpi/calc.py:derivative", "magpi/calc.py:value_and_derivative"]}
{"id": "C120", "title": "Rounding does not flip the sign of r0", "statement": "With arithmetic of a fixed precision, rounded to nearest, the ADF of any nesting of complement, union, intersection, equivalence, implication, difference and xor of r0 is positive at the points of the set and negative at the others, given that the ADFs it is built from are. Each conjunction and disjunction has an absolute error of at most 6 * 2^-precision * (|a| + |b|).", "quantifier": "all precisions of at least 4 bits, all ways to break ties, all nestings, all values of the leaves; exponents are unbounded", "why_tests_cant": "the set of float pairs and of nestings is too large to enumerate", "anchors": ["magpi/r_fun.py:RAlpha.conjunction", "magpi/r_fun.py:RAlpha.disjunction", "magpi/r_fun.py:RFun.xor", "magpi/r_fun.py:RFun.equivalence"]}
{"id": "C121", "title": "r0 and r1 in float32", "statement": "For finite float32 numbers the conjunction and disjunction of r0 and r1 are finite, never have the wrong sign and have a small absolute error.", "quantifier": "all finite float32 numbers, with the infinities, nans, subnormal numbers and overflow of IEEE 754", "why_tests_cant": "2^64 pairs; the failures are at extreme magnitudes or at special pairs of close numbers", "anchors": ["magpi/r_fun.py:RAlpha.conjunction", "magpi/r_fun.py:RAlpha.disjunction"]}
{"id": "C122", "title": "TR.run stops at the tolerance", "statement": "TR.run makes updates until the error is at most tol or maxiter updates are made, and at least one unless maxiter is 0. Its result has no larger value than the start, its state holds the value and the gradient norm of the result, and the gradient norm is at most tol.", "quantifier": "all twice continuously differentiable functions of pytrees of arrays, all starts, options and maxiter", "why_tests_cant": "the number of iterations is unbounded and tests run only a few functions", "anchors": ["magpi/tr.py:TR", "magpi/tr.py:TR.init_state", "magpi/tr.py:TR.update"]}
{"id": "C123", "title": "axis_size along any axis", "statement": "axis_size(tree, axis) returns n exactly if the tree has leaves and each of them has size n along the axis, counted from the end if the axis is negative; axis_size fails with AssertionError if the sizes differ and with IndexError if there is no leaf or a leaf has no such axis.", "quantifier": "all trees of arrays of any rank, all integers as axis", "why_tests_cant": "ranks, axes and sizes are unbounded; tests only use axis 0", "anchors": ["magpi/opt.py:axis_size", "magpi/opt.py:check_axis_size"]}
{"id": "C124", "title": "The magnetization of the notebooks has unit length", "statement": "The function mag of examples/hysteresis.ipynb and examples/mumag3.ipynb returns a unit vector at every point of space, whatever the network and its parameters are, if the initial magnetization is a unit vector. The initial magnetizations m0, m_flower and m_vortex are unit vectors at every point.", "quantifier": "all cuboid grids, points, networks and parameters", "why_tests_cant": "points and parameters form a continuum and the notebooks have no tests", "anchors": ["examples/hysteresis.ipynb", "examples/mumag3.ipynb", "examples/mumag3.py:cayley_rotation"]}
{"id": "C125", "title": "The energies of the notebooks are the micromagnetic energies", "statement": "The losses of examples/hysteresis.ipynb and examples/mumag3.ipynb return the mean exchange, anisotropy, stray field and external energies over the sample points, and their sum e_tot; the value to minimise is e_tot + e_mag. For a unit magnetization the exchange energy is not negative and 0 exactly if the Jacobian is 0 at the points, the anisotropy energy is between 0 and Ka and 0 exactly if the magnetization is parallel to the easy axis at each point, and the external energy is at least -|hext|, with equality for hext > 0 exactly if the magnetization is along the field.", "quantifier": "all magnetizations, stray field solvers, sample points, exchange lengths, constants and fields", "why_tests_cant": "magnetizations form a space of functions and the notebooks have no tests", "anchors": ["examples/hysteresis.ipynb", "examples/mumag3.ipynb"]}
{"id": "C126", "title": "TR minimises the total energy in the hysteresis notebook", "statement": "The automatic gradient of the loss of examples/hysteresis.ipynb, with stop_gradient in the stray field, is the gradient of the value of the loss, and of the total energy if the stray field is reciprocal; TR with the options of the notebook then lowers the total energy until the gradient norm is at most tol.", "quantifier": "all curves of parameters, magnetizations, reciprocal stray field solvers and sample points", "why_tests_cant": "parameters form a continuum and the notebooks have no tests", "anchors": ["examples/hysteresis.ipynb", "magpi/tr.py:TR.update"]}
{"id": "C127", "title": "Boundary conditions hold on the boundary of composed solids", "statement": "Take any program that builds a solid with the primitives, set operations and transformations of r_fun.py, and pass its distance function as adf to impose_neumann_bc or impose_dirichlet_bc. At a smooth boundary point the model with Neumann data h has its old value and the derivative h along the unit vector that leaves the solid there; without h the derivative is 0. At every boundary point the model with Dirichlet data g has the value g.", "quantifier": "all programs (nesting depth, dimension, parameters, R-systems RAlpha with alpha < 1 and RP), points, models, data of any shape and argument positions", "why_tests_cant": "programs, points and models are infinitely many; the tests use one or two solids at a few points", "anchors": ["magpi/model.py:impose_neumann_bc", "magpi/model.py:impose_dirichlet_bc", "magpi/r_fun.py:RAlpha", "magpi/r_fun.py:RP", "magpi/r_fun.py:cuboid", "magpi/r_fun.py:revolution"]}
{"id": "C128", "title": "TR follows the trust-region rule", "statement": "After every update of TR that makes a step with finite ratio rho: the step is accepted exactly if rho >= rho_accept, otherwise the parameters stay; the radius is multiplied by decrease_factor if rho < rho_decrease; it is multiplied by increase_factor (at most max_tr_radius) if rho > rho_increase and the step ends on the boundary of the region, within 1e-8 + 1e-5 radius; otherwise it stays. The flag limit_step of the subproblem has the same meaning.", "quantifier": "all objectives, parameters, states and options", "why_tests_cant": "all histories and option values; the tests look at two or three final results", "anchors": ["magpi/tr.py:update_tr_radius", "magpi/tr.py:TR.update", "magpi/tr.py:steihaug"]}
{"id": "C129", "title": "ADFs called with a 2-d array of points", "statement": "An ADF called with an array of N points (shape (N, n)) instead of one point returns one number. For N = 1 it is the value at the point, unless the solid is rotated, revolved or contains a cylinder; rotated and revolved solids raise for every 2-d array. For intersections of shifted and scaled boxes the number is positive exactly if all points are inside and negative exactly if one point is outside; the same is expected of every solid, but with spheres, ellipsoids and unions only one direction holds, and with complements none. A reflection or projection of N points with N, n >= 2 raises TypeError unless N = n, and for N = n it silently moves the points by wrong amounts.", "quantifier": "all programs that nest the functions of r_fun.py, all arrays of points", "why_tests_cant": "the tests call ADFs with single points or under vmap only", "anchors": ["magpi/r_fun.py:cuboid", "magpi/r_fun.py:sphere", "magpi/r_fun.py:cylinder", "magpi/r_fun.py:reflect", "magpi/r_fun.py:project", "magpi/r_fun.py:rotate2d", "magpi/r_fun.py:rotate3d", "magpi/r_fun.py:revolution", "magpi/r_fun.py:compose"]}
{"id": "C130", "title": "Integrals over annuli and shells converge", "statement": "integrate_disk and integrate_sphere return a value whose distance from the integral in polar or spherical coordinates is at most a constant times the largest step, for integrands that are bounded and Lipschitz between the two radii; the constant depends only on the bound, the Lipschitz constant, the radii and the angles. With n nodes in every direction the result tends to the integral as n grows.", "quantifier": "all radii 0 <= r_inner <= r, angles, origins, node counts, rules of the library, bounded Lipschitz integrands", "why_tests_cant": "the tests integrate single functions with one number of nodes", "anchors": ["magpi/integrate.py:integrate_disk", "magpi/integrate.py:integrate_sphere"]}
{"id": "C131", "title": "Hypercube samples in float32", "statement": "In float32 arithmetic Hypercube.transform maps every sample that is not negative and not exactly 1 into the closed box, so that includes returns True for it, and the result differs from the exact image of the sample by a few units in the last place of the corners. includes compares exactly. This needs an edge length that does not overflow; for finite corners whose distance overflows the result is nan or inf. The sample 1, the end of the documented range, can be mapped out of the box.", "quantifier": "all float32 corners and samples, all dimensions", "why_tests_cant": "rounding errors at the corners depend on rare bit patterns", "anchors": ["magpi/domain.py:Hypercube.transform", "magpi/domain.py:Hypercube.includes", "magpi/domain.py:transform_hypercube"]}
{"id": "C132", "title": "Boxes and balls with rounded arithmetic", "statement": "With rounded arithmetic of any precision the ADF of a cuboid, translated at most once, and every nesting of the set operations of r0 over such cuboids never has the wrong sign: positive only strictly inside, negative only outside. For a ball in n dimensions the same holds up to a relative error of about n + 2 units in the last place of the squared distance, in whatever order the squares are added, and outside this margin the sign is decided; without the margin it fails in float32 in both directions.", "quantifier": "all precisions of at least 4 bits, all roundings to nearest, all edge lengths, shifts, points, radii and nestings", "why_tests_cant": "rounding errors near the boundary depend on rare bit patterns", "anchors": ["magpi/r_fun.py:cuboid", "magpi/r_fun.py:translate", "magpi/r_fun.py:sphere", "magpi/r_fun.py:RAlpha"]}
{"id": "C133", "title": "Derivatives of the spline basis by automatic differentiation", "statement": "Nested forward derivatives of spline.basis with respect to the input are defined for every grid; each is the derivative from the right of the one before at every input, nodes included, the two-sided derivative up to order degree - 1 on strictly increasing nodes, and 0 above the degree. Forward derivatives in a direction of input and grid are the directional derivatives at inputs that are not nodes if no two nodes at most degree places apart coincide. In that case, which covers every grid of make_grid with start < stop, reverse mode returns finite cotangents, the transpose of the forward derivative. If two such nodes coincide, the reverse-mode gradient with respect to the input is not finite at every input and for all cotangents, although the forward derivative is.", "quantifier": "all grids, inputs, degrees, orders of differentiation, directions and cotangents", "why_tests_cant": "the tests differentiate no splines", "anchors": ["magpi/spline.py:_base_fun", "magpi/spline.py:basis", "magpi/spline.py:make_grid"]}
{"id": "C134", "title": "Derivatives of ADFs by forward-mode automatic differentiation", "statement": "For every ADF built from the primitives, transformations and set operations of r_fun, with any of the R-systems RAlpha, RAlphaM, RP and RhoBlending, a directional derivative that jax.jvp returns as a finite number is the derivative of the ADF along every curve with that direction. If alpha < 1, p >= 2 and rho > 0, then away from edges, centres, axes and points where the boundaries of two operands meet the derivative is finite: jvp gives the product of the gradient with the direction and jacfwd gives the gradient. Derivatives of ellipsoids are finite and correct except at the centre. At the centre of a sphere and on the axis of a cylinder the ADF has a gradient but jacfwd is not finite, and with r1 the union of any ADF with itself has no finite derivative anywhere.", "quantifier": "all programs, dimensions, points, directions, R-systems and their parameters, all user functions with correct derivatives", "why_tests_cant": "the tests check gradients of a few ADFs at a few points", "anchors": ["magpi/r_fun.py:RAlpha", "magpi/r_fun.py:RAlphaM", "magpi/r_fun.py:RP", "magpi/r_fun.py:RhoBlending", "magpi/r_fun.py:cuboid", "magpi/r_fun.py:sphere", "magpi/r_fun.py:cylinder", "magpi/r_fun.py:ellipsoid", "magpi/r_fun.py:union", "magpi/r_fun.py:intersection", "magpi/r_fun.py:difference", "magpi/r_fun.py:translate", "magpi/r_fun.py:revolution"]}
{"id": "C135", "title": "Additional arguments of the integration functions", "statement": "Additional positional and keyword arguments of integrate, integrate_disk and integrate_sphere are passed to the integrand unchanged.", "quantifier": "all integrands, domains, rules, positional and keyword arguments", "why_tests_cant": "the tests pass no additional arguments", "anchors": ["magpi/integrate.py:integrate", "magpi/integrate.py:integrate_disk", "magpi/integrate.py:integrate_sphere"]}
{"id": "C136", "title": "Derivatives of odeint by automatic differentiation", "statement": "jax.jvp of odeint, with rk4, explicit_euler or another method with a correct derivative, returns the derivative of every state with respect to the initial value, the times and the additional arguments. jax.vjp is the transpose with respect to the same variables and hence the gradient of every weighted sum of all states.", "quantifier": "all dynamics with correct derivatives, initial values, times, tangents and cotangents", "why_tests_cant": "the tests do not differentiate odeint", "anchors": ["magpi/ode.py:odeint", "magpi/ode.py:rk4", "magpi/ode.py:explicit_euler"]}
