{"id": "C01", "title": "broadcast_shapes is numpy broadcasting", "statement": "broadcast_shapes(*shapes) returns, for shapes with positive sizes, exactly the shape numpy/torch broadcasting gives (right aligned, every size equals the result size or is 1, the result is the least such shape) and raises ValueError exactly when the shapes are not broadcastable; the answer does not depend on argument order. With zero-sized axes the claim is false (a shape (0,) is turned into (1,)).", "quantifier": "all finite tuples of shapes (any rank, any positive sizes); refutation witness for size 0", "why_tests_cant": "ranks, sizes and number of shapes are unbounded; a test samples a few tuples", "anchors": ["geoopt/utils.py:broadcast_shapes"]}
{"id": "C02", "title": "axis index conversion round-trips", "statement": "idx2sign converts a non-negative axis to its negative alias and back without changing which axis is meant, for every axis of every rank; canonical_dims maps each valid axis (negative or not) to the unique alias in 0..ndim-1.", "quantifier": "all ranks >= 1, all axes -ndim <= i < ndim, all lists of axes", "why_tests_cant": "uses Python modulo by a negative divisor; correctness for all ranks is an arithmetic fact", "anchors": ["geoopt/utils.py:idx2sign", "geoopt/utils.py:canonical_dims"]}
{"id": "C03", "title": "drop_dims removes exactly the listed axes", "statement": "drop_dims(t, dims) on a tensor whose listed axes have size 1 returns the shape with exactly those axes removed, for every strictly increasing list of non-negative axes. For an unsorted or negative list the claim is false.", "quantifier": "all shapes, all strictly increasing non-negative axis lists; refutation for a decreasing list", "why_tests_cant": "number of axes and rank unbounded; loop with an index shift that depends on the iteration", "anchors": ["geoopt/utils.py:drop_dims"]}
{"id": "C04", "title": "size arguments are canonicalised", "statement": "size2shape gives the same shape for f(a,b,...), f((a,b,...)) and f([a,b,...]); make_tuple/strip_tuple are inverse on non-singleton data and make_tuple is idempotent.", "quantifier": "all argument tuples", "why_tests_cant": "variadic input of any length", "anchors": ["geoopt/utils.py:size2shape", "geoopt/utils.py:make_tuple", "geoopt/utils.py:strip_tuple"]}
{"id": "C05", "title": "canonical manifold of nested scalings", "statement": "canonical_manifold(m) strips every Scaled layer, at any nesting depth, and returns a non-Scaled manifold; ismanifold(m, C) for C other than Scaled/Manifold answers the question about that innermost manifold.", "quantifier": "all nesting depths and all innermost manifolds", "why_tests_cant": "nesting depth unbounded", "anchors": ["geoopt/utils.py:canonical_manifold", "geoopt/utils.py:ismanifold"]}
{"id": "C06", "title": "regularised sign, abs and clamp_abs are safe denominators", "statement": "sign(x) is never 0 and agrees with the mathematical sign off 0; sabs(x) > 0; clamp_abs(x) has the sign of x (positive at 0) and magnitude >= eps, so dividing by it never divides by zero and never flips sign.", "quantifier": "all real x, all eps > 0", "why_tests_cant": "continuum of inputs including the boundary 0", "anchors": ["geoopt/utils.py:sign", "geoopt/utils.py:sabs", "geoopt/utils.py:clamp_abs"]}
{"id": "C07", "title": "pickling a ManifoldTensor is lossless", "statement": "Rebuilding from __reduce_ex__ yields the same class (ManifoldTensor or ManifoldParameter), the same storage view (offset, sizes, strides), the same manifold and the same requires_grad.", "quantifier": "all tensors, both classes, all manifolds, both requires_grad values", "why_tests_cant": "positional reconstruction arguments of variable length are sliced from both ends; equality must hold for every argument list", "anchors": ["geoopt/tensor.py:ManifoldTensor.__reduce_ex__", "geoopt/tensor.py:_rebuild_manifold_tensor"]}
{"id": "C08", "title": "deepcopy preserves sharing and isolates copies", "statement": "copy.deepcopy of any collection of manifold tensors produces one copy per distinct object: shared tensors stay shared, manifolds shared between tensors stay shared, values are equal and copies never alias originals.", "quantifier": "all lists of references (any sharing pattern)", "why_tests_cant": "memo dictionary histories are unbounded", "anchors": ["geoopt/tensor.py:ManifoldTensor.__deepcopy__"]}
{"id": "C09", "title": "ManifoldTensor.dist honours p", "statement": "For a non-geodesic p, x.dist(y, p=p) should be the p-norm of x - y as in torch.Tensor.dist. The code drops p and always returns the 2-norm, so the claim is false.", "quantifier": "all tensors and all p; refutation witness", "why_tests_cant": "a test with p=2 passes; only quantifying over p shows the defect", "anchors": ["geoopt/tensor.py:ManifoldTensor.dist"]}
{"id": "C10", "title": "ManifoldParameter construction never silently changes the manifold", "statement": "Constructing a ManifoldParameter from a ManifoldTensor either keeps that tensor's manifold or raises ValueError; from a plain tensor it uses the given manifold or Euclidean; the shape check of the manifold is always enforced.", "quantifier": "all data tensors, optional manifolds, shapes", "why_tests_cant": "case analysis over every combination of data kind and manifold argument", "anchors": ["geoopt/tensor.py:ManifoldParameter.__new__", "geoopt/tensor.py:ManifoldTensor.__new__"]}
{"id": "C11", "title": "check and assert_check agree", "statement": "assert_check_point, assert_check_point_on_manifold and assert_check_vector_on_tangent raise ValueError exactly when the matching check_* returns False, for every manifold and every input; a False answer always carries a reason.", "quantifier": "all manifolds (any shape/point/tangent predicates), all inputs, both ok_point values", "why_tests_cant": "the two code paths are written separately; agreement for all predicates is a logical equivalence", "anchors": ["geoopt/manifolds/base.py:Manifold.check_point_on_manifold", "geoopt/manifolds/base.py:Manifold.assert_check_vector_on_tangent"]}
{"id": "C12", "title": "origin with a seed does not disturb the global random stream", "statement": "Manifold.origin(seed=s) leaves the global CPU generator in exactly the state it had before the call, even if sampling raises, and its result depends only on the seed and the size.", "quantifier": "all generator states, all seeds, all samplers including ones that raise", "why_tests_cant": "interference is visible only in later draws; must hold for every state and every failure point", "anchors": ["geoopt/manifolds/base.py:Manifold.origin"]}
{"id": "C13", "title": "Scaled multiplies distances and only distances", "statement": "For every scale s, Scaled(M, s) multiplies dist by s, dist2 by s^2, logmap by s, divides the direction argument of retr/expmap/expmap_transp/retr_transp/transp_follow_* by s, and leaves inner, norm, proju, projx, egrad2rgrad and transp unchanged; methods marked incompatible raise NotImplementedError.", "quantifier": "all base manifolds, all scales, all inputs", "why_tests_cant": "generic wrapper over arbitrary base functions", "anchors": ["geoopt/manifolds/scaled.py:rescale", "geoopt/manifolds/scaled.py:Scaled", "geoopt/manifolds/base.py:ScalingStorage"]}
{"id": "C14", "title": "Scaled preserves the exp/log/dist laws and nests multiplicatively", "statement": "If the base satisfies Exp(x, Log(x,y)) = y, Log(x, Exp(x,u)) = u or norm(Log(x,y)) = dist(x,y), so does Scaled(base, s) for every s > 0 (s != 0 for the first two); Scaled(Scaled(M,a),b) acts as Scaled(M, a*b) on every registered method.", "quantifier": "all bases, all nonzero scales, all nesting depths", "why_tests_cant": "higher-order property over arbitrary manifolds", "anchors": ["geoopt/manifolds/scaled.py:rescale", "geoopt/manifolds/scaled.py:Scaled"]}
{"id": "C15", "title": "Scaled forwards the public methods of its base", "statement": "Every public method of the base that is not rescaled should behave as on the base. This is false for methods that class Manifold itself defines and Scaled does not override (origin, pack_point, unpack_tensor, component_inner): attribute lookup finds the generic version, so e.g. Scaled(Euclidean()).origin is a random point and Scaled(product).pack_point rejects the parts.", "quantifier": "all methods and bases; refutation witnesses", "why_tests_cant": "depends on Python attribute resolution order, invisible to tests of the forwarded methods", "anchors": ["geoopt/manifolds/scaled.py:Scaled.__getattr__", "geoopt/manifolds/base.py:Manifold.origin", "geoopt/manifolds/base.py:Manifold.component_inner"]}
{"id": "C16", "title": "Scaled construction succeeds for every manifold", "statement": "Scaled(M) should be constructible for every manifold class in the library. It requires every name in the class scaling registry to be a method of the instance; this fails for StereographicProductManifold, whose registry is copied from Stereographic.", "quantifier": "all manifold classes of the library; refutation for one", "why_tests_cant": "needs the whole registry/method table, not a sample", "anchors": ["geoopt/manifolds/scaled.py:Scaled.__init__", "geoopt/manifolds/product.py:StereographicProductManifold"]}
{"id": "C17", "title": "product packing is a bijection", "statement": "For every product manifold, the component slices partition 0..n_elements in order; unpack_tensor(pack_point(parts)) = parts and pack_point(unpack_tensor(x)) = x for every point of the right size; pack_point raises exactly when the number of parts or a trailing shape is wrong.", "quantifier": "all lists of component shapes (any rank, zero sizes allowed), all data, all batch sizes", "why_tests_cant": "number and shapes of components unbounded", "anchors": ["geoopt/manifolds/product.py:ProductManifold.__init__", "geoopt/manifolds/product.py:ProductManifold.pack_point", "geoopt/manifolds/product.py:ProductManifold.unpack_tensor", "geoopt/manifolds/product.py:ProductManifold.take_submanifold_value"]}
{"id": "C18", "title": "product operations act component by component", "statement": "The i-th component of expmap/retr/projx/proju/egrad2rgrad/transp/logmap/retr_transp/... on the product is the component manifold's result on the i-th components; inner and dist2 are the sums of the component values; a point (vector) passes the product check exactly when every component passes its own.", "quantifier": "all products, all inputs", "why_tests_cant": "any number of heterogeneous components", "anchors": ["geoopt/manifolds/product.py:ProductManifold"]}
{"id": "C19", "title": "product distance is a metric up to the clamp", "statement": "The product distance is symmetric and satisfies the triangle inequality up to the constant floor, given the components do; it never returns less than sqrt(1e-15), so dist(x,x)=0 is false.", "quantifier": "all products of metric components, all points", "why_tests_cant": "Minkowski inequality over any number of components", "anchors": ["geoopt/manifolds/product.py:ProductManifold.dist", "geoopt/manifolds/product.py:ProductManifold.dist2"]}
{"id": "C20", "title": "StereographicProductManifold samples and signed distances", "statement": "wrapped_normal with a scalar std should produce noise of that scale and dist2plane(signed=True) should carry a sign. Both are false: a scalar std is multiplied by a zero vector, so every sample equals the mean, and squaring removes every sign.", "quantifier": "all means, all scalar std, all noise; all points and planes", "why_tests_cant": "a distributional fact: every noise value gives the same sample", "anchors": ["geoopt/manifolds/product.py:StereographicProductManifold.wrapped_normal", "geoopt/manifolds/product.py:StereographicProductManifold.dist2plane"]}
{"id": "C21", "title": "sphere operations stay on the sphere", "statement": "projx, retr, expmap and random points of Sphere have unit norm (and lie in the subspace when one is configured) whenever they are defined: projx for every x with nonzero projection, retr for every tangent step, expmap for every tangent step.", "quantifier": "all dimensions, all points, all tangent vectors, all orthogonal projectors", "why_tests_cant": "real-analytic identity over a continuum", "anchors": ["geoopt/manifolds/sphere.py:Sphere.projx", "geoopt/manifolds/sphere.py:Sphere.retr", "geoopt/manifolds/sphere.py:Sphere.expmap"]}
{"id": "C22", "title": "sphere tangent projection", "statement": "proju(x, .) is linear, lands in the tangent space, fixes tangent vectors, is self-adjoint, and as egrad2rgrad represents the Euclidean differential: <egrad2rgrad(x,g), v> = <g, v> for every tangent v.", "quantifier": "all dimensions, all unit x (in the subspace), all u, v", "why_tests_cant": "algebraic identity over all vectors", "anchors": ["geoopt/manifolds/sphere.py:Sphere.proju", "geoopt/manifolds/sphere.py:Sphere.egrad2rgrad"]}
{"id": "C23", "title": "sphere exp, log and dist agree", "statement": "For unit x, y with |<x,y>| <= 1-EPS: logmap is tangent, norm(logmap(x,y)) = dist(x,y), expmap(x, logmap(x,y)) = y, dist is symmetric, in [0, pi], invariant under orthogonal maps. For EPS < |u| with cos|u| in the clamp range and |u| < pi, logmap(x, expmap(x,u)) = u. dist(x,x)=0 is false because of the clamp.", "quantifier": "all dimensions and points in the stated range", "why_tests_cant": "transcendental identities over a continuum", "anchors": ["geoopt/manifolds/sphere.py:Sphere.logmap", "geoopt/manifolds/sphere.py:Sphere.dist", "geoopt/manifolds/sphere.py:Sphere.expmap"]}
{"id": "C24", "title": "Sphere shape validation", "statement": "With a subspace configured, check_point should require at least projector.dim()-1 dimensions, and a positive answer should carry no failure reason. Both are false: the first result is overwritten and its comparison is inverted.", "quantifier": "all shapes and projector shapes; refutation witness", "why_tests_cant": "tests look at the boolean only", "anchors": ["geoopt/manifolds/sphere.py:Sphere._check_shape"]}
{"id": "C25", "title": "Cayley retraction stays on the Stiefel manifold", "statement": "For every x with x^T x = I and every u (tangent or not) the linear system solved by CanonicalStiefel is uniquely solvable and retr(x,u)^T retr(x,u) = I; retr_transp returns (retr, transp_follow_retr).", "quantifier": "all sizes n >= p, all points, all directions", "why_tests_cant": "matrix identity for all dimensions; needs skew-symmetric invertibility", "anchors": ["geoopt/manifolds/stiefel.py:CanonicalStiefel._transp_follow_one", "geoopt/manifolds/stiefel.py:CanonicalStiefel.retr", "geoopt/manifolds/stiefel.py:CanonicalStiefel.retr_transp"]}
{"id": "C26", "title": "Cayley transport is isometric, tangent and reversible", "statement": "transp_follow_retr maps tangent vectors at x to tangent vectors at retr(x,u), preserves the canonical inner product, and following the transported direction backwards undoes retr and transport.", "quantifier": "all sizes, points, directions and vectors", "why_tests_cant": "matrix identities over all dimensions", "anchors": ["geoopt/manifolds/stiefel.py:CanonicalStiefel.transp_follow_retr", "geoopt/manifolds/stiefel.py:CanonicalStiefel.inner"]}
{"id": "C27", "title": "canonical Stiefel gradient; proju is not a projection", "statement": "egrad2rgrad lands in the tangent space and represents the differential in the canonical metric: inner(x, egrad2rgrad(x,g), v) = <g,v> for tangent v. The same function is used as proju, where the claim 'proju fixes tangent vectors' is false (it can double them).", "quantifier": "all sizes, points, g, v; refutation witness for idempotence", "why_tests_cant": "matrix identity for all sizes", "anchors": ["geoopt/manifolds/stiefel.py:CanonicalStiefel.proju", "geoopt/manifolds/stiefel.py:CanonicalStiefel.egrad2rgrad", "geoopt/manifolds/stiefel.py:CanonicalStiefel.inner"]}
{"id": "C28", "title": "Euclidean Stiefel projection and retractions", "statement": "EuclideanStiefel.proju is the orthogonal projection onto the tangent space; retr (QR with sign fix) and projx (SVD) return points with orthonormal columns for any factorisation satisfying the QR/SVD contract, and retr(x,0)=x.", "quantifier": "all sizes, points, vectors, all valid factorisations", "why_tests_cant": "must hold for every factorisation the backend may return", "anchors": ["geoopt/manifolds/stiefel.py:EuclideanStiefel.proju", "geoopt/manifolds/stiefel.py:EuclideanStiefel.retr", "geoopt/manifolds/stiefel.py:Stiefel.projx"]}
{"id": "C29", "title": "SPD retraction and projection stay symmetric positive definite", "statement": "For every SPD x and symmetric u, retr(x,u) is SPD; proju is symmetric; projx is symmetric and positive semidefinite for every input, and positive definite when the symmetric part is nonsingular. projx landing on the manifold for every input is false (projx(0)=0).", "quantifier": "all sizes, all x, all u, all valid eigendecompositions", "why_tests_cant": "positivity over all vectors and all sizes", "anchors": ["geoopt/manifolds/symmetric_positive_definite.py:SymmetricPositiveDefinite.retr", "geoopt/manifolds/symmetric_positive_definite.py:SymmetricPositiveDefinite.projx"]}
{"id": "C30", "title": "SPD metric and gradient", "statement": "inner is a symmetric positive definite form on symmetric matrices at every SPD point, invariant under congruence, and inner(x, egrad2rgrad(x,g), v) equals the Frobenius pairing <g,v> for symmetric v.", "quantifier": "all sizes, all SPD x, all symmetric u, v, all g", "why_tests_cant": "matrix identities over all dimensions", "anchors": ["geoopt/manifolds/symmetric_positive_definite.py:SymmetricPositiveDefinite.inner", "geoopt/manifolds/symmetric_positive_definite.py:SymmetricPositiveDefinite.egrad2rgrad"]}
{"id": "C31", "title": "SPD exp and log are inverse", "statement": "expmap(x, u) is SPD and expmap(x, logmap(x,y)) = y, logmap(x, expmap(x,u)) = u for all SPD x, y and symmetric u, for every valid eigendecomposition; transport is an isometry between tangent spaces.", "quantifier": "all sizes, points, vectors, all valid eigendecompositions", "why_tests_cant": "matrix functional calculus independent of the eigendecomposition chosen", "anchors": ["geoopt/manifolds/symmetric_positive_definite.py:SymmetricPositiveDefinite.expmap", "geoopt/manifolds/symmetric_positive_definite.py:SymmetricPositiveDefinite.logmap", "geoopt/manifolds/symmetric_positive_definite.py:SymmetricPositiveDefinite.transp", "geoopt/linalg/batch_linalg.py:sym_funcm"]}
{"id": "C32", "title": "membership checks reject points off the manifold", "statement": "check_point_on_manifold with tolerance 0 should accept exactly the manifold's points. False for SymmetricPositiveDefinite (accepts singular matrices when atol > 0), BirkhoffPolytope (accepts negative entries) and Lorentz (accepts the lower sheet).", "quantifier": "all matrices/vectors; refutation witnesses; soundness and completeness where it holds (Stiefel, Sphere)", "why_tests_cant": "soundness quantifies over all rejected inputs", "anchors": ["geoopt/manifolds/symmetric_positive_definite.py:SymmetricPositiveDefinite._check_point_on_manifold", "geoopt/manifolds/birkhoff_polytope.py:BirkhoffPolytope._check_point_on_manifold", "geoopt/manifolds/lorentz/__init__.py:Lorentz._check_point_on_manifold"]}
{"id": "C33", "title": "Sinkhorn projection", "statement": "proj_doubly_stochastic terminates within max_iter rounds; entries stay positive; every row sum is in (0,1) and equals s/(s+eps); if it stops by the tolerance test every column sum is within tol of 1. Without that, no column guarantee holds (refuted for max_iter rounds).", "quantifier": "all sizes, all positive matrices, all eps, tol, max_iter", "why_tests_cant": "loop with data-dependent exit", "anchors": ["geoopt/manifolds/birkhoff_polytope.py:proj_doubly_stochastic"]}
{"id": "C34", "title": "Birkhoff tangent projection", "statement": "For every doubly stochastic x with positive entries and every u, proj_tangent returns a matrix with zero row and column sums for any solution of its normal equations, and it represents the differential in the Fisher metric: inner(x, egrad2rgrad(x,g), v) = <g,v>/n for tangent v (the factor 1/n is the code's normalisation).", "quantifier": "all sizes, all x, u, v, all solutions of the linear system", "why_tests_cant": "linear-algebra fact over all dimensions, including uniqueness of the residual", "anchors": ["geoopt/manifolds/birkhoff_polytope.py:proj_tangent", "geoopt/manifolds/birkhoff_polytope.py:BirkhoffPolytope.inner", "geoopt/manifolds/birkhoff_polytope.py:BirkhoffPolytope.proju"]}
{"id": "C35", "title": "Moebius addition is a gyrogroup operation", "statement": "For every curvature k and points where the denominators do not vanish: 0 is the identity, -x is the left inverse, (-x) + (x + y) = y, gyrations preserve the inner product, and the gyroassociative and gyrocommutative laws hold with the library's gyration formula.", "quantifier": "all k, all dimensions, all points of the domain", "why_tests_cant": "rational identities over a continuum", "anchors": ["geoopt/manifolds/stereographic/math.py:_mobius_add", "geoopt/manifolds/stereographic/math.py:_gyration"]}
{"id": "C36", "title": "Moebius operations stay in the ball", "statement": "For k < 0, mobius_add of two points of the open ball of radius 1/sqrt(-k) is in the open ball and its denominator is positive; expmap, geodesic and scalar multiplication stay in the ball; project returns a point within the safety radius, leaves points inside it unchanged and is idempotent.", "quantifier": "all k < 0, all dimensions, all points of the ball, all directions", "why_tests_cant": "inequalities over a continuum", "anchors": ["geoopt/manifolds/stereographic/math.py:_mobius_add", "geoopt/manifolds/stereographic/math.py:_project", "geoopt/manifolds/stereographic/math.py:_expmap"]}
{"id": "C37", "title": "stereographic distance", "statement": "dist is nonnegative, symmetric, zero exactly on the diagonal, invariant under left gyrotranslation, satisfies dist(0,x) = dist0(x), equals twice the Euclidean distance at k = 0, and obeys the triangle inequality up to a relative error of 3e-9/|k|.", "quantifier": "all k, all dimensions, all points of the domain", "why_tests_cant": "continuum; includes invariance under every translation", "anchors": ["geoopt/manifolds/stereographic/math.py:_dist", "geoopt/manifolds/stereographic/math.py:_dist0"]}
{"id": "C38", "title": "stereographic exp and log are inverse", "statement": "expmap(x, logmap(x,y)) = y and logmap(x, expmap(x,u)) = u, expmap0/logmap0 likewise and they agree with expmap/logmap at 0, wherever the numerical clamps are inactive; norm(x, logmap(x,y)) = dist(x,y).", "quantifier": "all k, all dimensions, all points/vectors in the clamp-free region", "why_tests_cant": "transcendental identities over a continuum", "anchors": ["geoopt/manifolds/stereographic/math.py:_expmap", "geoopt/manifolds/stereographic/math.py:_logmap", "geoopt/manifolds/stereographic/math.py:_expmap0", "geoopt/manifolds/stereographic/math.py:_logmap0"]}
{"id": "C39", "title": "stereographic geodesics", "statement": "geodesic(0,x,y)=x, geodesic(1,x,y)=y, dist(x, geodesic(t,x,y)) = t*dist(x,y) for 0<=t<=1; geodesic_unit(t,x,u) starts at x.", "quantifier": "all k, t, points", "why_tests_cant": "continuum", "anchors": ["geoopt/manifolds/stereographic/math.py:_geodesic", "geoopt/manifolds/stereographic/math.py:_geodesic_unit"]}
{"id": "C40", "title": "stereographic parallel transport", "statement": "transp(x,y,.) is linear, preserves the Riemannian inner product, transp(y,x,transp(x,y,v)) = v; transp0 and transp0back are its special cases at 0 and mutually inverse.", "quantifier": "all k, all points, all vectors", "why_tests_cant": "algebraic identities over a continuum", "anchors": ["geoopt/manifolds/stereographic/math.py:_parallel_transport", "geoopt/manifolds/stereographic/math.py:_parallel_transport0", "geoopt/manifolds/stereographic/math.py:_parallel_transport0back"]}
{"id": "C41", "title": "stereographic metric and gradient", "statement": "inner is symmetric, bilinear, positive definite wherever the conformal factor is positive and inner(x, egrad2rgrad(x,g), v) = <g,v>; norm(x,u)^2 = inner(x,u,u).", "quantifier": "all k, points, vectors", "why_tests_cant": "continuum", "anchors": ["geoopt/manifolds/stereographic/math.py:_inner", "geoopt/manifolds/stereographic/math.py:_norm", "geoopt/manifolds/stereographic/math.py:_egrad2rgrad"]}
{"id": "C42", "title": "shape of Stereographic.inner", "statement": "inner(x,u,v,keepdim=False) should drop the reduced axis. False: the conformal factor keeps the axis, so for a batch of B vectors the result has shape (B,B).", "quantifier": "all batch shapes; refutation and exact characterisation", "why_tests_cant": "shape algebra for all ranks; single-vector tests hide it", "anchors": ["geoopt/manifolds/stereographic/math.py:_inner"]}
{"id": "C43", "title": "Moebius scalar multiplication", "statement": "1*x = x, (r1*r2)*x = r1*(r2*x), (r1+r2)*x = (r1*x)+(r2*x) up to the relative error caused by the 1e-15 added under the square root of |k|, and norm(r*x) matches |r| times the distance to 0, in the clamp-free region.", "quantifier": "all k, scalars, points", "why_tests_cant": "continuum", "anchors": ["geoopt/manifolds/stereographic/math.py:_mobius_scalar_mul"]}
{"id": "C44", "title": "stereographic projection is a bijection", "statement": "inv_sproj maps the kappa-stereographic model into the ambient model and sproj inverts it, both ways.", "quantifier": "all k != 0, all points off the pole", "why_tests_cant": "continuum", "anchors": ["geoopt/manifolds/stereographic/math.py:_sproj", "geoopt/manifolds/stereographic/math.py:_inv_sproj"]}
{"id": "C45", "title": "curvature trigonometry does not depend on the batch", "statement": "The value tan_k/artan_k/sin_k/arsin_k compute for one curvature should not depend on which other curvatures are in the same tensor. True of tan_k and artan_k; false of sin_k/arsin_k for 0 < |k| <= 1e-8 (the all-zero branch uses a longer Taylor series than the mixed branch) and of arsin_k for k > 0 outside [-1,1] (clamped only in the mixed branch).", "quantifier": "all curvature lists; refutation and the region where it holds", "why_tests_cant": "depends on tensor-wide branches (torch.all)", "anchors": ["geoopt/manifolds/stereographic/math.py:tan_k", "geoopt/manifolds/stereographic/math.py:artan_k", "geoopt/manifolds/stereographic/math.py:arsin_k"]}
{"id": "C46", "title": "Lorentz operations stay on the hyperboloid", "statement": "project, expmap, expmap0 of the Lorentz model return points with <x,x>_L = -k and positive time coordinate for every k > 0; proju lands in the tangent space, fixes tangent vectors.", "quantifier": "all k > 0, all dimensions, all points and vectors", "why_tests_cant": "continuum", "anchors": ["geoopt/manifolds/lorentz/math.py:_project", "geoopt/manifolds/lorentz/math.py:_expmap", "geoopt/manifolds/lorentz/math.py:_project_u"]}
{"id": "C47", "title": "Lorentz exp, log, dist and transport agree", "statement": "In the clamp-free region logmap is tangent, expmap(x, logmap(x,y)) = y, norm(logmap(x,y)) = dist(x,y), dist is symmetric, parallel transport is tangent and isometric, transp0/transp0back are its special cases.", "quantifier": "all k > 0, points, vectors", "why_tests_cant": "continuum", "anchors": ["geoopt/manifolds/lorentz/math.py:_logmap", "geoopt/manifolds/lorentz/math.py:_dist", "geoopt/manifolds/lorentz/math.py:_parallel_transport"]}
{"id": "C48", "title": "Lorentz gradient conversion has no side effects", "statement": "egrad2rgrad(x,u) should not change u and calling it twice should give the same answer. False: it flips the sign of the first coordinate of its argument in place.", "quantifier": "all inputs; refutation witness", "why_tests_cant": "aliasing is invisible when the argument is not reused", "anchors": ["geoopt/manifolds/lorentz/math.py:_egrad2rgrad"]}
{"id": "C49", "title": "Lorentz polar projection and ball conversions", "statement": "project_polar should land on the hyperboloid for every k (false unless k=1); lorentz_to_poincare and poincare_to_lorentz should be inverse (exact only up to the epsilon in the denominator) and act on the last axis of any batch (false for rank other than 2).", "quantifier": "all k, points, ranks", "why_tests_cant": "continuum and all ranks", "anchors": ["geoopt/manifolds/lorentz/math.py:_project_polar", "geoopt/manifolds/lorentz/math.py:lorentz_to_poincare", "geoopt/manifolds/lorentz/math.py:poincare_to_lorentz"]}
{"id": "C50", "title": "Siegel Cayley transforms are inverse", "statement": "cayley_transform and inverse_cayley_transform are mutually inverse wherever the matrix they invert is invertible, raise otherwise, preserve symmetry, never raise on the manifolds, and carry the bounded domain to the upper half space and back.", "quantifier": "all sizes, all complex matrices in the domain", "why_tests_cant": "matrix identity over all dimensions", "anchors": ["geoopt/manifolds/siegel/csym_math.py:cayley_transform", "geoopt/manifolds/siegel/csym_math.py:inverse_cayley_transform"]}
{"id": "C51", "title": "Siegel gradients are symmetric and represent the differential", "statement": "upper-half-space egrad2rgrad returns a symmetric matrix and pairs with tangent vectors as the Euclidean differential under the manifold's inner product, which is Hermitian and positive. For the bounded domain the result is symmetric but represents the differential only at points where conj(z) z is real; there is a point where it does not.", "quantifier": "all sizes and points", "why_tests_cant": "matrix identities over all dimensions", "anchors": ["geoopt/manifolds/siegel/upper_half.py:UpperHalf.egrad2rgrad", "geoopt/manifolds/siegel/upper_half.py:UpperHalf.inner", "geoopt/manifolds/siegel/bounded_domain.py:BoundedDomain.egrad2rgrad"]}
{"id": "C52", "title": "Takagi factorisation", "statement": "From any valid eigendecomposition of the compound matrix, takagi_eig returns ascending nonnegative values and S with A = conj(S) D S^H, the values being the singular values of A; takagi_eigvals returns the same values; S is unitary when they are positive, and need not be otherwise; the eigenvalues of the compound come in +/- pairs.", "quantifier": "all sizes, all complex symmetric matrices, all valid eigendecompositions", "why_tests_cant": "must hold for every eigenbasis the backend returns", "anchors": ["geoopt/manifolds/siegel/csym_math.py:takagi_eig", "geoopt/manifolds/siegel/csym_math.py:to_compound_symmetric"]}
{"id": "C53", "title": "vector-valued distance metrics", "statement": "Each Siegel metric is the documented function of the vector-valued distance. False for FinslerMinimumEntropy: its weights are 0,2,..,2(n-1) instead of the documented 2n,..,2 in any order.", "quantifier": "all ranks; refutation at every rank", "why_tests_cant": "the defect is in an index formula for arbitrary rank", "anchors": ["geoopt/manifolds/siegel/vvd_metrics.py:FinslerMinimumEntropyMetric"]}
{"id": "C54", "title": "RiemannianSGD keeps parameters on their manifolds", "statement": "After any number of steps with any gradients, learning rates and schedules, every parameter lies on its manifold, provided its manifold's retraction maps points and directions of the kind the optimizer produces to points; parameters without gradient are not moved by a step.", "quantifier": "all histories of steps, all gradients, hyper-parameter schedules, any number of parameters and groups", "why_tests_cant": "arbitrarily long histories", "anchors": ["geoopt/optim/rsgd.py:RiemannianSGD.step", "geoopt/optim/rsgd.py:RiemannianSGD.stabilize_group"]}
{"id": "C55", "title": "RiemannianSGD on Euclidean parameters is SGD", "statement": "On Euclidean parameters RiemannianSGD should produce the same trajectory as torch.optim.SGD with the same options. True without momentum; false with momentum because the buffer is initialised before being scaled.", "quantifier": "all histories; refutation with momentum", "why_tests_cant": "trajectory equality over unbounded histories", "anchors": ["geoopt/optim/rsgd.py:RiemannianSGD.step"]}
{"id": "C56", "title": "RiemannianSGD search directions are tangent", "statement": "The direction passed to the retraction is tangent at the current point from the second step on; on the first step with momentum it is not (the buffer starts as the raw Euclidean gradient).", "quantifier": "all histories; refutation for step 1", "why_tests_cant": "history-dependent invariant", "anchors": ["geoopt/optim/rsgd.py:RiemannianSGD.step"]}
{"id": "C57", "title": "RiemannianAdam moments are well formed", "statement": "For every history: the second moment and the AMSGrad maximum are nonnegative, the maximum never decreases, the denominator is strictly positive so the step is defined, the bias corrections lie in (0,1], step counts count the gradients seen, and parameters stay on their manifolds.", "quantifier": "all histories of steps and gradients, all betas in [0,1), eps > 0", "why_tests_cant": "arbitrarily long histories", "anchors": ["geoopt/optim/radam.py:RiemannianAdam.step"]}
{"id": "C58", "title": "sparse optimizers touch only the rows in the gradient", "statement": "One step of SparseRiemannianSGD/SparseRiemannianAdam changes exactly parameter and buffer rows named in the sparse gradient (before stabilisation) and updates those rows as the dense optimizer would.", "quantifier": "all parameters, all index sets, all histories", "why_tests_cant": "all index sets of any size", "anchors": ["geoopt/optim/sparse_rsgd.py:SparseRiemannianSGD.step", "geoopt/optim/sparse_radam.py:SparseRiemannianAdam.step"]}
{"id": "C59", "title": "sparse AMSGrad keeps a running maximum", "statement": "The stored maximum should be the maximum of all second moments seen by the row. False: SparseRiemannianAdam stores the bias-corrected square root back.", "quantifier": "all histories; refutation", "why_tests_cant": "only visible over several steps", "anchors": ["geoopt/optim/sparse_radam.py:SparseRiemannianAdam.step"]}
{"id": "C60", "title": "stabilisation period", "statement": "With stabilize=N, projection happens exactly at the step numbers divisible by N of each group (dense SGD), never when stabilize is None, and after it every visited manifold parameter equals its own projection.", "quantifier": "all histories, all N, all groups", "why_tests_cant": "unbounded histories", "anchors": ["geoopt/optim/rsgd.py:RiemannianSGD.step", "geoopt/optim/mixin.py:OptimMixin"]}
{"id": "C61", "title": "line search trial evaluations are side-effect free", "statement": "Evaluating the objective along the search direction (any number of trial steps in any order) leaves every parameter unchanged and calls the closure once per distinct trial step.", "quantifier": "all sequences of trial steps", "why_tests_cant": "sequence chosen by the line search method", "anchors": ["geoopt/optim/rlinesearch.py:RiemannianLineSearch._phi"]}
{"id": "C62", "title": "line search derivative matches the requested step", "statement": "derphi(a) should be the directional derivative at step a whatever trial steps were evaluated before. False when a was evaluated earlier and another step was evaluated since.", "quantifier": "all sequences of trial steps; refutation and the case where it holds", "why_tests_cant": "depends on evaluation order", "anchors": ["geoopt/optim/rlinesearch.py:RiemannianLineSearch._derphi"]}
{"id": "C63", "title": "line search returns the loss of the accepted point", "statement": "After step() the stored loss is the objective at the new parameters. True when the accepted step size was evaluated during the search; false for a step size that was not (fallback step or custom method), where the parameters are moved twice for the evaluation.", "quantifier": "all methods and step sizes; refutation", "why_tests_cant": "custom methods are arbitrary functions", "anchors": ["geoopt/optim/rlinesearch.py:RiemannianLineSearch.step"]}
{"id": "C64", "title": "line search uses a descent direction", "statement": "The direction used by the line search has non-positive directional derivative whatever conjugate-gradient rule is chosen: if the proposed direction is not a descent direction, the search falls back to steepest descent.", "quantifier": "all conjugate-gradient rules, all gradients, all parameter lists", "why_tests_cant": "user supplied rules", "anchors": ["geoopt/optim/rlinesearch.py:RiemannianLineSearch._compute_search_direction"]}
{"id": "C65", "title": "RHMC rejection restores the state", "statement": "When a proposal is rejected every parameter is exactly what it was before the step; step counters never exceed the number of calls, the rejection rate is between 0 and 1.", "quantifier": "all log-densities, all histories, all random draws", "why_tests_cant": "unbounded histories and arbitrary densities", "anchors": ["geoopt/samplers/rhmc.py:RHMC.step", "geoopt/samplers/base.py:Sampler.rejection_rate"]}
{"id": "C66", "title": "RHMC proposals are time reversible", "statement": "Negating the final momentum and running the integrator again should return to the start (needed for a correct acceptance rule). False: the first momentum kick is a full step, the last an extra half step.", "quantifier": "all starting states; refutation", "why_tests_cant": "a statistical test would need to detect a biased stationary law", "anchors": ["geoopt/samplers/rhmc.py:RHMC.step", "geoopt/samplers/rhmc.py:RHMC._step"]}
{"id": "C67", "title": "StereographicTreeDataset enumerates the whole tree", "statement": "For every depth and branching factor c >= 2 the generator yields exactly (c^(depth+1)-1)/(c-1) nodes in breadth-first order, node i carries i as the largest entry of its label vector, each non-root node is generated from a unique earlier parent.", "quantifier": "all depths, all branching factors", "why_tests_cant": "exponentially many nodes, unbounded depth", "anchors": ["geoopt/datasets/stereographic.py:StereographicTreeDataset"]}
{"id": "C68", "title": "hyperplane distance layer shape", "statement": "Distance2StereographicHyperplanes maps an input of shape batch+(d,)+rest to batch+(num_planes,)+rest for every layout the layer supports, and squared/signed options do what they say.", "quantifier": "all batch shapes", "why_tests_cant": "all ranks", "anchors": ["geoopt/layers/stereographic.py:Distance2StereographicHyperplanes"]}
{"id": "C69", "title": "Sphere subspace is the one asked for", "statement": "Sphere(intersection=A) restricts to span(A) and Sphere(complement=A) to its orthogonal complement, for every QR factorisation, when A has full column rank. For a rank-deficient A the claim is false: the subspace always has as many dimensions as A has columns.", "quantifier": "all dimensions, all full-rank A, all valid QR factors; refutation witness", "why_tests_cant": "continuum of matrices; the result depends on the factorisation chosen by the backend", "anchors": ["geoopt/manifolds/sphere.py:Sphere._configure_manifold_intersection", "geoopt/manifolds/sphere.py:Sphere._configure_manifold_complement"]}
{"id": "C70", "title": "Sphere tangent check respects the subspace", "statement": "check_vector_on_tangent with zero tolerance should accept exactly the tangent vectors of the (sub)sphere. It accepts exactly the vectors orthogonal to x, so with a subspace configured vectors leaving the subspace are accepted.", "quantifier": "all dimensions, points and vectors; refutation witness", "why_tests_cant": "continuum", "anchors": ["geoopt/manifolds/sphere.py:Sphere._check_vector_on_tangent"]}
{"id": "C71", "title": "Scaled: gradients agree with the scaled exponential map", "statement": "For every smooth F, the derivative of t -> F(Scaled.expmap(x, t*v)) at 0 should equal Scaled.inner(x, Scaled.egrad2rgrad(x, grad F), v). If the base has this property, the wrapper has it only up to the factor 1/s: expmap divides the direction by s while egrad2rgrad and inner are passed through, so it is false for every s other than 1 (where the gradient does not vanish).", "quantifier": "all bases with the property, all nonzero scales, all F; refutation at s = 2", "why_tests_cant": "needs the derivative of an arbitrary function along an arbitrary base manifold's geodesics", "anchors": ["geoopt/manifolds/scaled.py:Scaled.egrad2rgrad", "geoopt/manifolds/scaled.py:rescale"]}
{"id": "C72", "title": "Scaled manifolds survive pickling", "statement": "A Scaled manifold (hence a ManifoldTensor on it) loaded back from pickle or torch.save should behave as the original. False for every class in the library: the rescaled methods sit in the instance dictionary as bound methods, pickle restores them by name from the class, so dist becomes Manifold.dist, expmap the NotImplemented constant, and for bases registering further methods loading itself recurses without end.", "quantifier": "all manifold classes of the library", "why_tests_cant": "depends on how CPython reduces bound methods, not on any numeric value", "anchors": ["geoopt/manifolds/scaled.py:Scaled.__init__", "geoopt/manifolds/scaled.py:Scaled.__getattr__"]}
{"id": "C73", "title": "Scaled calls its base with arguments the base accepts", "statement": "Every call a Scaled wrapper makes on its base binds to the base method's signature, and every argument it rescales is a parameter of the wrapped method. True for all library classes except Lorentz: Lorentz.norm(u) does not accept (x, u), so Scaled(Lorentz).norm raises TypeError, and Lorentz registers 'random' but inherits Manifold.random without a std parameter, so Scaled(Lorentz).random raises KeyError.", "quantifier": "all library classes, all delegated and registered methods; two refutations", "why_tests_cant": "needs every class signature against every wrapper call", "anchors": ["geoopt/manifolds/scaled.py:rescale", "geoopt/manifolds/lorentz/__init__.py:Lorentz.norm"]}
{"id": "C74", "title": "geodesic_unit of a stereographic product is unit speed", "statement": "geodesic_unit(t, x, u) of StereographicProductManifold, like the component method it wraps, should move a distance t along the direction u. It is false: each component normalises its own part of u, so every component moves a distance t and the product point moves sqrt(m) t, in a direction other than u.", "quantifier": "all products of m stereographic components, all t >= 0, all points and vectors", "why_tests_cant": "needs the distance along the curve for any number of components", "anchors": ["geoopt/manifolds/product.py:StereographicProductManifold.geodesic_unit"]}
{"id": "C75", "title": "Moebius operations of a stereographic product accept every component shape", "statement": "mobius_add/coadd/sub/cosub of StereographicProductManifold return the packed component results for vector components; for a component of rank two or more (with leading sizes other than 1) they raise ValueError on every input, although the constructor and all inherited operations accept such components.", "quantifier": "all component shapes, all batches, all inputs", "why_tests_cant": "shapes and number of components are unbounded", "anchors": ["geoopt/manifolds/product.py:StereographicProductManifold._mobius_2_manifold_args", "geoopt/manifolds/product.py:ProductManifold.pack_point"]}
{"id": "C76", "title": "the Cayley map of CanonicalStiefel is a retraction", "statement": "A retraction must move along the given tangent direction to first order: retr(x, t u) = x + t u + o(t). It is false for CanonicalStiefel: the first-order term is t (u - x u^T x), which differs from t u for every tangent u with x^T u <> 0 (at x = I, u skew, the point moves twice as far).", "quantifier": "all sizes, all points and directions (exact expansion); refutation for all small t", "why_tests_cant": "a statement about the limit, and about every size", "anchors": ["geoopt/manifolds/stiefel.py:CanonicalStiefel.retr", "geoopt/manifolds/stiefel.py:CanonicalStiefel._amat"]}
{"id": "C77", "title": "the canonical Stiefel inner product is a Riemannian metric", "statement": "CanonicalStiefel.inner is symmetric, bilinear and positive definite at every point, at least half the Frobenius product.", "quantifier": "all sizes, points and vectors", "why_tests_cant": "positivity over all sizes and vectors", "anchors": ["geoopt/manifolds/stiefel.py:CanonicalStiefel.inner"]}
{"id": "C78", "title": "SPD distances: affine-invariant and log-Euclidean are metrics-like, Stein is not", "statement": "With default_metric AIM, SymmetricPositiveDefinite.dist(x, y) is symmetric, zero exactly when x equals y, unchanged by simultaneous congruence of both points, equal to the Riemannian length of logmap(x, y), and dist(x, expmap(x, u)) is the length of u. With LEM it satisfies all the metric axioms. With SM the value is nonnegative, symmetric and zero exactly when x = y, but it is the S-divergence, not its root, and the triangle inequality fails (refuted).", "quantifier": "for all sizes, all SPD matrices, all invertible congruences, all eigendecompositions eigh may return", "why_tests_cant": "an identity or inequality between functions of every pair or triple of SPD matrices of every size; sampled matrices cannot establish it, nor a universal counterexample family", "anchors": ["geoopt/manifolds/symmetric_positive_definite.py:_affine_invariant_metric", "geoopt/manifolds/symmetric_positive_definite.py:_stein_metric", "geoopt/manifolds/symmetric_positive_definite.py:_log_eucliden_metric", "geoopt/manifolds/symmetric_positive_definite.py:dist"]}
{"id": "C79", "title": "Birkhoff retraction and sampling", "statement": "BirkhoffPolytope.retr returns entries at least 1e-12 and row sums below 1 + n*1e-12; when Sinkhorn stops by its tolerance the columns are within tol (+ n*1e-12) and the rows within n*tol of 1. random is positive for draws without zeros. The result for one matrix depends on the rest of its batch, because the loop stops for the whole batch at once (refuted independence).", "quantifier": "for all sizes, batches, positive points, directions, eps, tol, max_iter", "why_tests_cant": "loop with a data-dependent, batch-wide exit; the bound must hold for every size and number of rounds", "anchors": ["geoopt/manifolds/birkhoff_polytope.py:BirkhoffPolytope.retr", "geoopt/manifolds/birkhoff_polytope.py:BirkhoffPolytope.random_naive", "geoopt/manifolds/birkhoff_polytope.py:proj_doubly_stochastic"]}
{"id": "C80", "title": "Birkhoff proju is not a projection and fails at origin()", "statement": "A user expects proju(x, .) to fix tangent vectors, transp(x, x, v) = v, and geometry to work at origin(). None holds: at the centre of the polytope proju divides every tangent vector by n, and at origin() (the identity, n >= 2) the linear system is singular so proju and egrad2rgrad raise.", "quantifier": "for all n and all tangent vectors (refutation at the centre); for all n >= 2 and all u (failure at the identity)", "why_tests_cant": "singularity of the system for every size, and the exact factor for every tangent vector", "anchors": ["geoopt/manifolds/birkhoff_polytope.py:proj_tangent", "geoopt/manifolds/birkhoff_polytope.py:BirkhoffPolytope.origin", "geoopt/manifolds/birkhoff_polytope.py:BirkhoffPolytope.transp"]}
{"id": "C81", "title": "Lorentz sampling uses its standard deviation", "statement": "Lorentz.random_normal should spread samples according to std ('measure is induced by Normal distribution on the tangent space of zero'). Every result is on the hyperboloid, but the draw is normalised to unit Euclidean length first: with mean 0 the sample is the same for every std > 0, and no sample is ever further than 1 from the origin (as measured by Lorentz.dist), whatever mean, std and draw.", "quantifier": "all dimensions, k > 0, mean, std and draws", "why_tests_cant": "a bound over all draws; a moment test cannot establish that the support is bounded", "anchors": ["geoopt/manifolds/lorentz/__init__.py:Lorentz.random_normal", "geoopt/manifolds/lorentz/math.py:_expmap0"]}
{"id": "C82", "title": "Lorentz distance is a metric up to its floor", "statement": "Lorentz.dist is symmetric, satisfies the triangle inequality (clamp included) and is smallest exactly when the two points coincide; but the smallest value is sqrt(k)*ln(1+sqrt(1e-15)) > 0, so dist(x, x) = 0 is refuted.", "quantifier": "all dimensions, k > 0, all triples of points on the hyperboloid", "why_tests_cant": "an inequality over all triples of points", "anchors": ["geoopt/manifolds/lorentz/math.py:_dist", "geoopt/manifolds/lorentz/math.py:arcosh"]}
{"id": "C83", "title": "optimizer steps leave p.grad alone", "statement": "A user who keeps gradients between steps (gradient accumulation, logging, clipping after the step) expects step() not to change p.grad. True for the sparse optimizers and for RiemannianSGD without weight decay and Nesterov on manifolds whose egrad2rgrad does not write to its argument; false in general: weight decay is added in place, Nesterov on a Euclidean parameter overwrites the gradient with the search direction, and a second step on the same gradient decays twice. The exact contents after a step are characterised.", "quantifier": "all hyper-parameters, parameters, manifolds and gradients; refutations", "why_tests_cant": "aliasing effects depend on option combinations and on which manifold returns a view; tests zero the gradient each step", "anchors": ["geoopt/optim/rsgd.py:RiemannianSGD.step", "geoopt/optim/radam.py:RiemannianAdam.step"]}
{"id": "C84", "title": "RiemannianAdam on Euclidean parameters is Adam", "statement": "On plain (Euclidean) parameters RiemannianAdam produces exactly the trajectory of torch.optim.Adam as documented (L2 weight decay, bias correction, optional AMSGrad), for every sequence of gradients, including steps without gradient, and every schedule of learning rates, betas, eps and weight decay.", "quantifier": "all histories of one parameter, all gradient functions of the current point, all schedules with beta2 in [0,1) and a fixed amsgrad flag", "why_tests_cant": "an equality of trajectories over unboundedly many steps and all gradient oracles", "anchors": ["geoopt/optim/radam.py:RiemannianAdam.step"]}
{"id": "C85", "title": "stereographic products: distance to the origin and to planes", "statement": "StereographicProductManifold.dist0(x) is the distance of x from the origin, without the floor dist applies: dist(0, x) = max(dist0(x), sqrt(1e-15)); squared component distances add up for dist0 and for dist2plane, so each component contributes.", "quantifier": "all numbers of components, dimensions, curvatures and points", "why_tests_cant": "holds for every number and mix of components; a test fixes one product", "anchors": ["geoopt/manifolds/product.py:StereographicProductManifold.dist0", "geoopt/manifolds/product.py:StereographicProductManifold.dist2plane", "geoopt/manifolds/product.py:ProductManifold.dist"]}
{"id": "C86", "title": "line search gradients are those of the current parameters", "statement": "RiemannianLineSearch does not call the closure again at the start of a step when it can reuse the last trial. In every run, each step must nevertheless start from the loss and the Riemannian gradients of the closure at its current parameters. True for methods that evaluate at least one step and answer the step evaluated last; refuted after no_step=True, for methods that answer a step they did not evaluate (the next step lands on a stale point), and for methods that give up without evaluating (the next step raises KeyError).", "quantifier": "all runs of any length, all closures, manifolds, methods and conjugate-gradient rules; refutations", "why_tests_cant": "an invariant over histories and over arbitrary user methods", "anchors": ["geoopt/optim/rlinesearch.py:RiemannianLineSearch.step", "geoopt/optim/rlinesearch.py:RiemannianLineSearch._init_loss", "geoopt/optim/rlinesearch.py:RiemannianLineSearch._phi"]}
{"id": "C87", "title": "line search never increases the loss", "statement": "With a method that only accepts steps satisfying the sufficient decrease condition (such as Armijo backtracking), the loss at the parameters never increases over any run, whatever the conjugate-gradient rule. Armijo's first trial step is always positive and at most amax.", "quantifier": "all runs of any length, all closures, manifolds with definite inner products and conjugate-gradient rules", "why_tests_cant": "monotonicity over unboundedly many steps and all objectives", "anchors": ["geoopt/optim/rlinesearch.py:RiemannianLineSearch.step", "geoopt/optim/rlinesearch.py:armijo_backtracking"]}
{"id": "C88", "title": "line search stabilisation works", "statement": "With stabilize=N every N-th step should project the manifold parameters. Refuted: the projection is written in place outside torch.no_grad(), so the N-th step raises RuntimeError whenever a manifold parameter requires grad; every successful step increases the step count by one, so no run gets past N-1 steps.", "quantifier": "all methods, options, closures, parameter lists and N", "why_tests_cant": "the failure depends on the stabilisation period; the statement covers every N and every method", "anchors": ["geoopt/optim/rlinesearch.py:RiemannianLineSearch.stabilize_group", "geoopt/optim/rlinesearch.py:RiemannianLineSearch.step"]}
{"id": "C89", "title": "line search conjugate gradients have their transported direction", "statement": "After a step that found a step size, the next step can compute a conjugate direction: the transported search direction is available whenever the derivative is computed or transport_search_direction is on. Refuted for cg_method='constant' with a nonzero scale under 'armijo' (the second step always raises KeyError) and for Fletcher-Reeves under 'armijo' when the first search fails.", "quantifier": "all closures, methods, options and parameter lists; refutations", "why_tests_cant": "depends on combinations of options and on a failed search", "anchors": ["geoopt/optim/rlinesearch.py:RiemannianLineSearch.__init__", "geoopt/optim/rlinesearch.py:RiemannianLineSearch._compute_search_direction"]}
{"id": "C90", "title": "samples stay on the manifold", "statement": "Every step of RHMC, RSGLD and SGRHMC, including steps that reject, that happen during burn-in or that raise part way, leaves each manifold parameter on its manifold, and so does stabilisation. RHMC and RSGLD move along tangent vectors; SGRHMC draws velocities that are not tangent, so it relies on a retraction that reaches the manifold from any direction.", "quantifier": "all numbers of parameters, closures, noise, step sizes, n_steps and manifolds satisfying the retraction laws", "why_tests_cant": "an invariant over every trajectory, noise sequence and rejection pattern", "anchors": ["geoopt/samplers/rhmc.py:RHMC.step", "geoopt/samplers/rsgld.py:RSGLD.step", "geoopt/samplers/sgrhmc.py:SGRHMC.step"]}
{"id": "C91", "title": "recorded log probabilities are those of the samples", "statement": "sampler.log_probs[i] should be the log probability of the i-th sample. True for RHMC: each step appends the density of the point it leaves, accepted or not (also during burn-in, so the list is longer than acceptance_probs). False for RSGLD and SGRHMC: RSGLD appends the density of the point the step started from, SGRHMC that of the point before its last move.", "quantifier": "all closures, parameters, noise and draws; refutations", "why_tests_cant": "depends on the order of evaluation and update; tests only look at sample moments", "anchors": ["geoopt/samplers/rhmc.py:RHMC.step", "geoopt/samplers/rsgld.py:RSGLD.step", "geoopt/samplers/sgrhmc.py:SGRHMC.step"]}
{"id": "C92", "title": "Langevin and stochastic-gradient HMC on plain parameters", "statement": "On plain parameters RSGLD is stochastic gradient Langevin dynamics, x <- x + eps/2 grad log p(x) + sqrt(eps) z, over any number of steps; one SGRHMC step is n_steps+1 rounds of x <- x + v, v <- (1-alpha) v + eps grad log p + sqrt(2 alpha eps) z from a velocity of scale eps, with the gradient taken at the point before the move.", "quantifier": "all numbers of parameters, steps and rounds, gradients, noise and step sizes per group", "why_tests_cant": "an equality of trajectories for all gradient oracles and noise", "anchors": ["geoopt/samplers/rsgld.py:RSGLD.step", "geoopt/samplers/sgrhmc.py:SGRHMC.step"]}
{"id": "C93", "title": "dist2plane is the distance to the hyperplane", "statement": "On the kappa-stereographic model dist2plane(x, p, a) is the least distance from x to the points w with <(-p)+w, a> = 0: no such w is nearer, and for k <= 0 some w is as near up to a stated error coming from the 1e-15 the code adds to the denominator. With signed=True it carries the sign of <(-p)+x, a>; it is 0 on the plane; scaled=True multiplies by |a|. It is not independent of the length of a: a normal of length 1e-15 gives half the distance.", "quantifier": "all dimensions, curvatures outside the Taylor window, points x and p, normals a and points w of the plane; refutation by example", "why_tests_cant": "a minimum over infinitely many points; tests compare with a formula", "anchors": ["geoopt/manifolds/stereographic/math.py:_dist2plane", "geoopt/manifolds/stereographic/math.py:_dist"]}
{"id": "C94", "title": "the dim argument selects the axis, with broadcasting", "statement": "mobius_add and dist2plane called with a negative dim on tensors of any rank give, along that axis of the broadcast result, exactly the row-level operation on the corresponding (broadcast) rows of the inputs; dist2plane drops that axis or, with keepdim, keeps it with size 1.", "quantifier": "all ranks, shapes that broadcast and agree along dim, negative dims, entries and curvatures", "why_tests_cant": "all ranks, layouts and broadcast patterns", "anchors": ["geoopt/manifolds/stereographic/math.py:_mobius_add", "geoopt/manifolds/stereographic/math.py:_dist2plane"]}
{"id": "C95", "title": "sparse optimizers keep every row on its manifold", "statement": "Over any history of steps and edits (new gradients, changed hyperparameters, added groups) SparseRiemannianSGD and SparseRiemannianAdam keep every row of every manifold parameter on its manifold, buffer rows and first moments tangent at the row, second moments and their maxima nonnegative. For SGD with momentum this needs the first gradient's rows to be tangent and momentum not to be switched off; for manifolds whose retraction absorbs any direction nothing is needed.", "quantifier": "all histories, groups, parameters, tables, sparse gradients with repeated indices, hyperparameters and manifolds satisfying the retraction laws", "why_tests_cant": "an invariant over unbounded histories", "anchors": ["geoopt/optim/sparse_rsgd.py:SparseRiemannianSGD.step", "geoopt/optim/sparse_radam.py:SparseRiemannianAdam.step"]}
{"id": "C96", "title": "stabilisation of the sparse optimizers", "statement": "SparseRiemannianSGD projects all rows and buffer rows of a group exactly after the steps divisible by its stabilize period, and never touches plain parameters; SparseRiemannianAdam projects a group exactly when the period divides the step count of one of its parameters that had a gradient in this step. Projection maps every row by projx and every buffer row by proju at the projected row.", "quantifier": "all groups, edits between steps, step numbers and periods", "why_tests_cant": "quantifies over every schedule of steps and edits", "anchors": ["geoopt/optim/sparse_rsgd.py:SparseRiemannianSGD.stabilize_group", "geoopt/optim/sparse_radam.py:SparseRiemannianAdam.stabilize_group"]}
{"id": "C97", "title": "Moebius coaddition and right cancellation", "statement": "mobius_coadd(x,y) = ((1+k|y|^2)x + (1+k|x|^2)y)/(1 - k^2|x|^2|y|^2); it is commutative; mobius_sub(mobius_coadd(x,y),y) = x and mobius_cosub(mobius_add(x,y),y) = x; on the ball no denominator condition is needed. The docstring's claims that coaddition is associative and that the denominator is 1 + k^2|x|^2|y|^2 are false.", "quantifier": "all dimensions, curvatures and points with unclamped denominators; all projected points of the ball; refutations by example", "why_tests_cant": "an algebraic identity over all points; tests sample points", "anchors": ["geoopt/manifolds/stereographic/math.py:_mobius_coadd", "geoopt/manifolds/stereographic/math.py:_mobius_cosub", "geoopt/manifolds/stereographic/math.py:_mobius_sub"]}
{"id": "C98", "title": "antipode", "statement": "For k > 1e-8 antipode(x) is -x/(k|x|^2) up to an explicit error caused by math.pi; for k <= 0 it is -x; the origin maps to itself. dist(x, antipode(x)) is not pi/sqrt(k) (the denominator clamp makes it smaller than 2 at k = 1), for 0 < k <= 1e-8 the result is far from the antipode, and the docstring's formula is another point.", "quantifier": "all dimensions, points and curvatures; refutations by example", "why_tests_cant": "an error bound over all points against the exact real pi", "anchors": ["geoopt/manifolds/stereographic/math.py:_antipode", "geoopt/manifolds/stereographic/math.py:_geodesic_unit"]}
{"id": "C99", "title": "curvatures near zero", "statement": "For 0 < k <= 1e-8 the series used by tan_k, artan_k, sin_k and arsin_k agree with tan, atan, sin, asin scaled by sqrt(k) up to k^2|x|^5/5 (order 1) or k^6|x|^13 times a small constant (order 5); at k = 0 they are the identity. For -1e-8 <= k < 0 they are wrong: the code uses |k|, so each value lies on the other side of x from the hyperbolic function.", "quantifier": "all curvatures in the window and all arguments in range; refutation for every negative curvature in the window", "why_tests_cant": "a truncation error bound over a continuum, and sign error invisible at tested curvatures", "anchors": ["geoopt/manifolds/stereographic/math.py:tan_k_zero_taylor", "geoopt/manifolds/stereographic/math.py:artan_k_zero_taylor", "geoopt/manifolds/stereographic/math.py:sin_k_zero_taylor", "geoopt/manifolds/stereographic/math.py:arsin_k_zero_taylor"]}
{"id": "C100", "title": "distance of the Siegel upper half space", "statement": "UpperHalf.dist between points of the manifold never raises and is the chosen metric of the vector log((1+r)/max(eps,1-r)) where the r^2 are the eigenvalues of Siegel's cross ratio of the two points. It is symmetric, nonnegative, zero exactly for equal points, and invariant under Z+B (B real symmetric), A Z A^T (A real invertible) and -1/Z.", "quantifier": "all sizes, pairs of points, metrics obtainable for the rank, valid eigensolvers, precisions", "why_tests_cant": "an invariance over an infinite group, for every eigenbasis the backend may return", "anchors": ["geoopt/manifolds/siegel/siegel.py:SiegelManifold.dist", "geoopt/manifolds/siegel/csym_math.py:takagi_eigvals"]}
{"id": "C101", "title": "distance of the bounded domain", "statement": "BoundedDomain.dist is UpperHalf.dist of the Cayley images, in both directions, so the two models are isometric; it is symmetric, definite, a function of the cross ratio inside the domain, invariant under W Z W^T for unitary W, and from the origin it is the metric of the Takagi values of the point.", "quantifier": "all sizes, pairs of points, unitary matrices, metrics, valid eigensolvers", "why_tests_cant": "matrix identities over all dimensions", "anchors": ["geoopt/manifolds/siegel/bounded_domain.py:BoundedDomain.dist", "geoopt/manifolds/siegel/csym_math.py:cayley_transform"]}
{"id": "C102", "title": "Siegel distances saturate", "statement": "The Siegel distances are bounded although the spaces are not: the Finsler-infinity distance is below log(2/eps) and the squared Riemannian one at most n log(2/eps)^2. In the half plane dist(i, ti) = log t holds up to t = 2/eps - 1 and fails for every larger t.", "quantifier": "all sizes, points, precisions; all t >= 1", "why_tests_cant": "a bound over all pairs of points", "anchors": ["geoopt/manifolds/siegel/siegel.py:SiegelManifold.dist"]}
{"id": "C103", "title": "projection on the upper half space", "statement": "UpperHalf.projx maps any square complex matrix to a point of the manifold, keeping the symmetrised real part, and is idempotent. It fixes exactly the symmetric matrices with Im z >= eps, so it moves points of the manifold close to the boundary.", "quantifier": "all sizes and matrices, valid eigensolvers; refutation at every size", "why_tests_cant": "must hold for every eigenbasis and for repeated eigenvalues", "anchors": ["geoopt/manifolds/siegel/upper_half.py:UpperHalf.projx", "geoopt/manifolds/siegel/csym_math.py:positive_conjugate_projection"]}
{"id": "C104", "title": "projection on the bounded domain", "statement": "BoundedDomain.projx maps any square complex matrix to a point of the domain and is idempotent; it fixes exactly the symmetric matrices whose singular values are at most 1 - eps, so it moves points of the domain close to the boundary. retr of both Siegel manifolds therefore always lands on the manifold.", "quantifier": "all sizes and matrices, including singular ones whose Takagi factor is not unitary; valid eigensolvers", "why_tests_cant": "must hold for every eigenbasis and for singular matrices", "anchors": ["geoopt/manifolds/siegel/bounded_domain.py:BoundedDomain.projx", "geoopt/manifolds/siegel/siegel.py:SiegelManifold.retr"]}
{"id": "C105", "title": "Siegel checks, random points and origins", "statement": "For symmetric matrices, and for all matrices at zero tolerance, check_point_on_manifold of both Siegel manifolds accepts exactly the points of the manifold; symmetric vectors are accepted as tangent; random and origin return points of the manifold.", "quantifier": "all sizes, matrices, tolerances, draws of the generator", "why_tests_cant": "an equivalence over all matrices", "anchors": ["geoopt/manifolds/siegel/upper_half.py:UpperHalf._check_point_on_manifold", "geoopt/manifolds/siegel/bounded_domain.py:BoundedDomain._check_point_on_manifold", "geoopt/manifolds/siegel/upper_half.py:UpperHalf.random", "geoopt/manifolds/siegel/bounded_domain.py:BoundedDomain.random"]}
{"id": "C106", "title": "inner product of the bounded domain", "statement": "BoundedDomain.inner(u, u) is real and positive for nonzero symmetric u. It is not the Siegel metric of the bounded domain: the pull-back of UpperHalf.inner along the Cayley transform differs from it, even in the sign of the real part at some point.", "quantifier": "all sizes and points; refutation by example", "why_tests_cant": "comparison with the differential of a map", "anchors": ["geoopt/manifolds/siegel/bounded_domain.py:BoundedDomain.inner"]}
{"id": "C107", "title": "shapes of Siegel origin and dist", "statement": "UpperHalf.origin(*size) has the requested size only without batch dimensions: with one batch dimension the shape is wrong and with more it raises. dist ignores keepdim and its result has the batch shape only for the Riemannian metric.", "quantifier": "all batch shapes and sizes, all metrics", "why_tests_cant": "all ranks", "anchors": ["geoopt/manifolds/siegel/upper_half.py:UpperHalf.origin", "geoopt/manifolds/siegel/siegel.py:SiegelManifold.dist", "geoopt/manifolds/siegel/vvd_metrics.py:SiegelMetric"]}
{"id": "C108", "title": "Siegel proju is not a projection", "statement": "proju of the Siegel manifolds is egrad2rgrad, so it changes vectors that are already tangent and is not idempotent.", "quantifier": "refutation by example", "why_tests_cant": "the property is false", "anchors": ["geoopt/manifolds/siegel/siegel.py:SiegelManifold.proju"]}
{"id": "C109", "title": "mobius_matvec is exp0 . m . log0", "statement": "mobius_matvec(m, x) is the exponential at the origin of m applied to the logarithm of x: it composes like matrix products, multiplies the distance to the origin by |m x|/|x|, acts linearly when m keeps the length of x, agrees with mobius_scalar_mul for multiples of the identity, sends null vectors to 0 and stays in the ball; for tensors and dim=-1 it acts on every row. For another dim it raises or returns transposed values.", "quantifier": "all sizes p and n, matrices, points, curvatures outside the Taylor range, batch shapes", "why_tests_cant": "algebraic laws over all matrices, points and shapes", "anchors": ["geoopt/manifolds/stereographic/math.py:_mobius_matvec"]}
{"id": "C110", "title": "functions applied in the tangent space", "statement": "mobius_fn_apply_chain(x, f1, ..., fm) equals applying mobius_fn_apply with f1, then f2, ...; an empty chain returns x, the identity function returns x, and a matrix function gives mobius_matvec. On the ball results are in the ball whatever the functions return.", "quantifier": "chains of any length of arbitrary functions on rows of any size", "why_tests_cant": "quantifies over functions and chain lengths", "anchors": ["geoopt/manifolds/stereographic/math.py:mobius_fn_apply", "geoopt/manifolds/stereographic/math.py:mobius_fn_apply_chain", "geoopt/manifolds/stereographic/math.py:mobiusify"]}
{"id": "C111", "title": "mobius_pointwise_mul is a diagonal mobius_matvec", "statement": "mobius_pointwise_mul(w, x) equals mobius_matvec(diag(w), x). This holds when some |w_i x_i| exceeds 1e-8; otherwise the result is 0.", "quantifier": "all sizes, weights and points", "why_tests_cant": "equality of two routines for all arguments, boundary at 1e-8", "anchors": ["geoopt/manifolds/stereographic/math.py:_mobius_pointwise_mul"]}
{"id": "C112", "title": "weighted midpoints", "statement": "weighted_midpoint does not depend on the order of the points, commutes with orthogonal maps, depends on weights up to a common factor, stays in the ball, is the weighted mean for k=0; on the ball it is the unique minimiser of the weighted sum of sinh^2(sqrt(-k) d/2), commutes with translations, returns x for copies of x and is equidistant from two points of equal weight, up to a factor between 1 - 1e-10/sum(w) and 1 + 2e-12/|k| caused by the constants 1e-10 and 1e-15 of the code. posweight replaces points of negative weight by their antipodes (true for k <= 0, false for k > 0).", "quantifier": "lists of any number of points with any positive weights, all dimensions and k < -1e-8 (k arbitrary for the first laws)", "why_tests_cant": "a minimisation over the whole manifold and laws for lists of any length", "anchors": ["geoopt/manifolds/stereographic/math.py:_weighted_midpoint", "geoopt/manifolds/stereographic/manifold.py:Stereographic.weighted_midpoint"]}
{"id": "C113", "title": "curvature parametrisation", "statement": "PoincareBall(c) has curvature -c and SphereProjection(k) curvature k, and whatever value the learnable parameter takes the sign of the curvature stays. The curvature is exact up to 20, within 1e-5 beyond and strictly smaller than requested from 21.", "quantifier": "all c > 0 and all real parameter values", "why_tests_cant": "real-valued parameter space", "anchors": ["geoopt/manifolds/stereographic/manifold.py:PoincareBall", "geoopt/manifolds/stereographic/manifold.py:SphereProjection"]}
{"id": "C114", "title": "stereographic manifold methods return accepted points", "statement": "Every method of Stereographic with project=True returns a point within the projection radius that check_point_on_manifold accepts for any tolerance; with zero tolerance exactly those points are accepted. Fused transports agree with the separate calls and keep inner products, the exact retraction moves by the length of the vector, samples are at the distance given by the draw, radius is the radius of the ball. geodesic is not projected and can return rejected points; the default tolerances accept points outside the ball.", "quantifier": "all dimensions, curvatures, arguments, tolerances, draws", "why_tests_cant": "closure over all inputs, equivalence of the check", "anchors": ["geoopt/manifolds/stereographic/manifold.py:Stereographic", "geoopt/manifolds/stereographic/manifold.py:StereographicExact"]}
{"id": "C115", "title": "line search directions are conjugate gradient directions", "statement": "RiemannianLineSearch starts along -grad. After a step of size a the next direction is -g' + beta T(eta), with T(eta) the previous direction transported along the step, when that is a descent direction, and -g' otherwise; beta is the user's constant, the Fletcher-Reeves ratio or the Polak-Ribiere ratio of the whole parameter list (0 when the denominator is 0). The documented denominator is the squared length of the old gradient at the old point; the code measures the old gradient at the new point, which differs whenever the metric depends on the point.", "quantifier": "all parameter lists, manifolds, closures, line search results and both fall-backs", "why_tests_cant": "relates the state of two consecutive calls for every manifold and every step size; the documented denominator agrees on all constant metrics, which is what the tests use", "anchors": ["geoopt/optim/rlinesearch.py:RiemannianLineSearch.step", "geoopt/optim/rlinesearch.py:RiemannianLineSearch._compute_search_direction"]}
{"id": "C116", "title": "Euclidean manifold on tensors of any shape", "statement": "For Euclidean(ndim=k) inner, norm, dist and dist2 reduce the last k axes and broadcast the others; dist is a metric per batch entry and dist2 its square, inner is the sum of component_inner and the square of norm; expmap and logmap undo each other and expmap moves by norm(u); proju, egrad2rgrad and transp broadcast without changing values. This needs equal manifold axes and no axis of size 0: manifold axes that broadcast break the triangle inequality and inner, empty batches raise, and norm ignores the batch axes of x.", "quantifier": "all ndim, ranks, shapes, values, keepdim", "why_tests_cant": "laws for all shapes and broadcasting patterns", "anchors": ["geoopt/manifolds/euclidean.py:Euclidean"]}
{"id": "C117", "title": "Euclidean random_normal and origin have the requested shape", "statement": "random_normal(*size, mean, std) returns std z + mean in the requested shape and origin zeros, for sizes with at least ndim axes, and both raise otherwise. With tensor mean or std the shape can differ from size.", "quantifier": "all ndim, sizes, draws, means and deviations", "why_tests_cant": "all shapes", "anchors": ["geoopt/manifolds/euclidean.py:Euclidean.random_normal", "geoopt/manifolds/euclidean.py:Euclidean.origin"]}
{"id": "C118", "title": "stereographic functions act on rows along dim", "statement": "Every function of the stereographic model on tensors of any shape, with dim naming the same axis of every argument (negative, or non-negative for equal ranks), broadcasts the other axes and applies the one-row function to the rows along dim: sums, gyration, scalar and pointwise products, geodesics with a tensor of times, exponentials, logarithms, transports, projection, antipode. dist, norm, lambda_x reduce dim according to keepdim; sproj and inv_sproj remove and add one entry of a row. inner does so only with keepdim=True: otherwise a batch of b rows gives a b by b tensor that mixes rows.", "quantifier": "all shapes, ranks, dims, batch broadcasting patterns, keepdim, values and curvatures", "why_tests_cant": "all shapes and broadcasting patterns; tests use dim=-1 on one or two shapes", "anchors": ["geoopt/manifolds/stereographic/math.py:_gyration", "geoopt/manifolds/stereographic/math.py:_geodesic", "geoopt/manifolds/stereographic/math.py:_expmap", "geoopt/manifolds/stereographic/math.py:_logmap", "geoopt/manifolds/stereographic/math.py:_parallel_transport", "geoopt/manifolds/stereographic/math.py:_inner", "geoopt/manifolds/stereographic/math.py:_sproj", "geoopt/manifolds/stereographic/math.py:_project"]}
{"id": "C119", "title": "weighted_midpoint on tensors", "statement": "weighted_midpoint on a tensor of points of any shape, with weights that broadcast over the other axes (or none), returns for each position outside reducedim the midpoint of the weighted points that share it, with the reduced axes of size 1 (keepdim=True) or removed (positions given in increasing order, or one position); reducedim=None combines every point into one row. The method of the manifold projects each of these rows if keepdim=True, or if dim is negative and lies to the right of the reduced axes. Refuted: a single point without batch axis has its entries summed; several negative positions raise or leave an axis over; with more weightings than the points have axes the weightings are summed instead of the points; the method raises for a non-negative dim although the function succeeds.", "quantifier": "all ranks, sizes, dims, sets of reduced axes, weights, flags, values and curvatures", "why_tests_cant": "all shapes and sets of axes; the tests use two shapes with dim=-1", "anchors": ["geoopt/manifolds/stereographic/math.py:_weighted_midpoint", "geoopt/utils.py:drop_dims", "geoopt/manifolds/stereographic/manifold.py:Stereographic.weighted_midpoint"]}
{"id": "C120", "title": "Lorentz functions act on rows along dim", "statement": "On tensors of any shape inner, inner0, dist, dist0, project, project_polar, project_u, geodesic_unit, poincare_to_lorentz and the two checks of the Lorentz model work along the axis named by dim (negative or not), broadcast the other axes and obey keepdim: each row is treated as one vector. norm, expmap, expmap0, logmap, logmap0, logmap0back, egrad2rgrad and the transports do so when dim names the last axis. For another dim they take norms and inner products along the last axis: values are wrong, expmap0 and logmap0 return 2n-1 coordinates for n, egrad2rgrad negates the wrong entries. lorentz_to_poincare needs -dim to name the same axis as dim; with the default dim it raises for a single vector and for batches of rank 3.", "quantifier": "all ranks, sizes, dims, batch broadcasting patterns, keepdim, values and curvatures", "why_tests_cant": "all shapes and axes; the tests use dim=-1 on matrices", "anchors": ["geoopt/manifolds/lorentz/math.py:_inner", "geoopt/manifolds/lorentz/math.py:_norm", "geoopt/manifolds/lorentz/math.py:_expmap0", "geoopt/manifolds/lorentz/math.py:_logmap", "geoopt/manifolds/lorentz/math.py:_egrad2rgrad", "geoopt/manifolds/lorentz/math.py:lorentz_to_poincare", "geoopt/manifolds/lorentz/__init__.py:Lorentz"]}
{"id": "C121", "title": "Sphere methods act on rows of tensors", "statement": "On tensors of any shape the methods inner, projx, proju, egrad2rgrad, retr, expmap, logmap, transp, dist and the two checks of Sphere and SphereExact treat each row along the last axis as one vector, broadcast the axes before it and obey keepdim. With a subspace the projector matrix used for a row is the one at the position of the axes before the last two; a batch of projectors therefore matches points with one axis more than the projector batch. The documented use of a batch of c subspaces with b points of shape (b, dim) gives c*b results of shape (c, b, dim) instead of one for each point.", "quantifier": "all shapes, batch broadcasting patterns, projector batches, keepdim and values", "why_tests_cant": "all shapes; the tests use one row or one projector", "anchors": ["geoopt/manifolds/sphere.py:Sphere.inner", "geoopt/manifolds/sphere.py:Sphere.projx", "geoopt/manifolds/sphere.py:Sphere.expmap", "geoopt/manifolds/sphere.py:Sphere.logmap", "geoopt/manifolds/sphere.py:Sphere._project_on_subspace", "geoopt/manifolds/sphere.py:Sphere._check_point_on_manifold"]}
{"id": "C122", "title": "Stiefel methods act on each matrix of a batch", "statement": "On tensors with any axes before the last two, sym, trace, extract_diag, block_matrix and every method of CanonicalStiefel and EuclideanStiefel compute for each position of the batch exactly what they compute for one matrix; the batch axes of the arguments broadcast and keepdim keeps the reduced axes with size one. Batches that cannot broadcast raise. Two methods do not broadcast although their siblings do: CanonicalStiefel.retr_transp raises when the vector has another batch than the point or when the direction adds batch axes, and EuclideanStiefel.expmap raises when point and vector have different batch axes.", "quantifier": "all batch shapes, matrix sizes, broadcasting patterns, keepdim and values", "why_tests_cant": "all batch shapes; the tests use one fixed batch", "anchors": ["geoopt/manifolds/stiefel.py:CanonicalStiefel.inner", "geoopt/manifolds/stiefel.py:CanonicalStiefel._transp_follow_one", "geoopt/manifolds/stiefel.py:CanonicalStiefel.retr_transp", "geoopt/manifolds/stiefel.py:EuclideanStiefel.expmap", "geoopt/manifolds/stiefel.py:Stiefel._check_point_on_manifold", "geoopt/linalg/batch_linalg.py:sym", "geoopt/linalg/batch_linalg.py:block_matrix", "geoopt/linalg/batch_linalg.py:trace"]}
{"id": "C123", "title": "SPD methods act on each matrix of a batch", "statement": "On tensors with any axes before the last two, the symmetric matrix functions of geoopt.linalg and every method of SymmetricPositiveDefinite (the three distances, inner, projx, proju, egrad2rgrad, retr, expmap, logmap, transp, the checks, random) compute for each position of the batch exactly what they compute for one matrix; batch axes broadcast, keepdim keeps two axes of size one, batches that do not broadcast raise, and one singular point makes inner and retr raise for the whole batch. check_point raises on an empty batch. origin(b..., n, p) is a batch of identities of size n whatever p is, and origin with a tuple, which its annotation allows, raises.", "quantifier": "all batch shapes, matrix sizes, broadcasting patterns, metrics, keepdim and values", "why_tests_cant": "all batch shapes; the tests use a few fixed batches", "anchors": ["geoopt/manifolds/symmetric_positive_definite.py:SymmetricPositiveDefinite.dist", "geoopt/manifolds/symmetric_positive_definite.py:SymmetricPositiveDefinite.inner", "geoopt/manifolds/symmetric_positive_definite.py:SymmetricPositiveDefinite.retr", "geoopt/manifolds/symmetric_positive_definite.py:SymmetricPositiveDefinite.transp", "geoopt/manifolds/symmetric_positive_definite.py:SymmetricPositiveDefinite._check_point_on_manifold", "geoopt/manifolds/symmetric_positive_definite.py:SymmetricPositiveDefinite.origin", "geoopt/linalg/batch_linalg.py:sym_funcm", "geoopt/linalg/batch_linalg.py:sym_inv_sqrtm2"]}
{"id": "C124", "title": "Birkhoff methods on batches", "statement": "On tensors with any axes before the last two, the checks, inner, proju, egrad2rgrad, transp, retr_transp and origin of BirkhoffPolytope compute for each position of the batch what they compute for one matrix, although the tangent projection flattens the batch and unflattens it again; batch axes broadcast, one singular system makes the whole batch raise, and at interior points the projection exists and is tangent at each position. projx, retr and random make the same number of Sinkhorn passes for every matrix: the first at which all matrices of the broadcast batch are settled, at most max_iter. An empty batch raises.", "quantifier": "all batch shapes, matrix sizes, broadcasting patterns, max_iter, tolerances, keepdim and values", "why_tests_cant": "all batch shapes; the tests use one fixed batch", "anchors": ["geoopt/manifolds/birkhoff_polytope.py:proj_tangent", "geoopt/manifolds/birkhoff_polytope.py:proj_doubly_stochastic", "geoopt/manifolds/birkhoff_polytope.py:BirkhoffPolytope.retr", "geoopt/manifolds/birkhoff_polytope.py:BirkhoffPolytope.inner", "geoopt/manifolds/birkhoff_polytope.py:BirkhoffPolytope.retr_transp", "geoopt/manifolds/birkhoff_polytope.py:BirkhoffPolytope.origin"]}
{"id": "C125", "title": "Siegel methods act on each matrix of a batch", "statement": "On complex tensors with any axes before the last two, the functions of csym_math and the methods of UpperHalf and BoundedDomain (projx, proju, egrad2rgrad, retr, inner, dist, the checks, random) compute for each position of the batch exactly what they compute for one matrix, and a position that raises (a singular matrix, an eigenvalue outside the asserted range) makes the whole call raise. Projections keep or change each matrix by itself. Batch axes broadcast and batches that do not broadcast raise. inner has the shape of the batch, and one more axis of size one with keepdim; the shape of dist does not depend on keepdim: it is the batch for the Riemannian metric, has one more axis of size one for the others, and two for a single pair of points under the two metrics with weights.", "quantifier": "all batch shapes, matrix sizes, broadcasting patterns, metrics, keepdim and values", "why_tests_cant": "all batch shapes and positions of a failing matrix; the tests use a few fixed batches", "anchors": ["geoopt/manifolds/siegel/csym_math.py:takagi_eig", "geoopt/manifolds/siegel/csym_math.py:positive_conjugate_projection", "geoopt/manifolds/siegel/csym_math.py:cayley_transform", "geoopt/manifolds/siegel/siegel.py:SiegelManifold.dist", "geoopt/manifolds/siegel/upper_half.py:UpperHalf.inner", "geoopt/manifolds/siegel/bounded_domain.py:BoundedDomain.projx", "geoopt/manifolds/siegel/vvd_metrics.py:FinslerMinimumEntropyMetric.compute_metric"]}
{"id": "C126", "title": "Guards exclude NaN and infinity in floating point", "statement": "In IEEE float32 and float64 arithmetic the guarded functions return finite numbers for every argument that is not NaN, including infinities: artanh (magnitude at most 25, odd, nonnegative for nonnegative arguments), tan_k for negative curvature (never more than one part in a million outside the radius), the stereographic distance (also nonnegative, for any finite curvature), and the distance of the sphere (positive). A quotient by clamp_min(1e-15) of a finite number is never NaN. On ordinary arguments the guards do not distort: artanh, tan_k, artan_k, the distances and guarded quotients are close to the exact functions. A NaN argument gives NaN.", "quantifier": "both dtypes, every float, every elementary function with ten correct bits", "why_tests_cant": "all 2^32 or 2^64 arguments; the tests check gradients and values at a few points", "anchors": ["geoopt/manifolds/stereographic/math.py:artanh", "geoopt/manifolds/stereographic/math.py:tanh", "geoopt/manifolds/stereographic/math.py:tan_k", "geoopt/manifolds/stereographic/math.py:artan_k", "geoopt/manifolds/stereographic/math.py:_dist", "geoopt/utils.py:sabs", "geoopt/manifolds/sphere.py:Sphere.dist"]}
{"id": "C127", "title": "project stays inside the ball in floating point", "statement": "In float32 and float64, for every finite row of up to 2^64 entries, every finite negative curvature and every computed norm with the accuracy of torch.norm (or that overflowed to infinity), the rounded result of project is finite and its exact norm is strictly less than the exact radius 1/sqrt(-k). Rows inside the ball up to a margin of 0.5% (float32) or 0.002% (float64) are returned unchanged; rows outside keep their direction and are put within about one percent of the boundary.", "quantifier": "both dtypes, all rows, lengths up to 2^64, curvatures and norms within the stated accuracy", "why_tests_cant": "all rows and curvatures, and rounding of every operation; the tests sample a few", "anchors": ["geoopt/manifolds/stereographic/math.py:_project", "geoopt/utils.py:sabs"]}
{"id": "C128", "title": "arsinh in floating point", "statement": "For 0 <= x up to the root of the largest float the rounded arsinh is finite, nonnegative and accurate. It is not odd: for x <= -8192 (float32) or -2^28 (float64) the sum x + sqrt(1 + x^2) cancels, the clamp at 1e-15 decides, and the result is log(1e-15) whatever x is; for magnitudes whose square overflows the result is +infinity for negative x as well. Signed distances to hyperplanes inherit this.", "quantifier": "both dtypes, every float in the stated ranges, every logarithm with ten correct bits", "why_tests_cant": "all floats; the tests do not call arsinh with large negative arguments", "anchors": ["geoopt/manifolds/stereographic/math.py:arsinh", "geoopt/manifolds/stereographic/math.py:arsin_k"]}
{"id": "C129", "title": "Lorentz distances in floating point", "statement": "arcosh is finite, nonnegative and accurate for arguments between 1 and 2^100. The argument of the distance can be below 1 by rounding, and nothing clamps it from below: for a point of the hyperboloid with one spatial coordinate of magnitude at least 8192 (float32) or 2^28 (float64) the computed inner product with itself is 0, and the distance of the point to itself is a negative number below -15.", "quantifier": "both dtypes, every float in the stated ranges, every logarithm with ten correct bits", "why_tests_cant": "all floats; the tests use points close to the origin", "anchors": ["geoopt/manifolds/lorentz/math.py:arcosh", "geoopt/manifolds/lorentz/math.py:_dist", "geoopt/manifolds/lorentz/math.py:_inner", "geoopt/manifolds/lorentz/math.py:_project"]}
{"id": "C130", "title": "The Riemannian gradient of the squared distance is minus twice the logarithm", "statement": "For half the squared distance to a fixed target y as loss, egrad2rgrad applied to its Euclidean gradient is -logmap(x, y) on Sphere, Lorentz and Stereographic (every sign of curvature), so one gradient step of size 1 with expmap lands on y. With the library's root sqrt(|k| + 1e-15) the stereographic gradient keeps the direction and its length is off by a relative 1e-8/|k| at most. Where the distance is clamped the gradient degenerates: it is zero on the sphere within acos(1 - eps) of the target or its antipode (although the distance is positive) and on the Poincare ball for pairs beyond the clamp of artanh; on Lorentz it keeps the direction of the logarithm and is zero at the target.", "quantifier": "all dimensions, all pairs of points with the clamps inactive (resp. active), all curvatures with closed forms, every gradient in the sense of directional derivatives", "why_tests_cant": "equality of a derivative with a closed form at every pair of points; tests compare a few optimisation runs with tolerances", "anchors": ["geoopt/manifolds/sphere.py:egrad2rgrad", "geoopt/manifolds/sphere.py:dist", "geoopt/manifolds/sphere.py:logmap", "geoopt/manifolds/lorentz/math.py:_egrad2rgrad", "geoopt/manifolds/lorentz/math.py:_dist", "geoopt/manifolds/stereographic/math.py:_egrad2rgrad", "geoopt/manifolds/stereographic/math.py:_dist"]}
{"id": "C131", "title": "Small gradient steps decrease the loss", "statement": "For every loss that is differentiable at x with Euclidean gradient g and Riemannian gradient r = egrad2rgrad(x, g) different from zero, there is a positive step size below which every step x -> retr(x, -t r) and x -> expmap(x, -t r) strictly decreases the loss, on Sphere (with any subspace) and Stereographic (any curvature, with or without the final projection, for points strictly inside the radius that project clips to). On Lorentz this fails for every k: expmap floors the length of the step at 1e-4, which rescales the base point for smaller steps, so that the loss can go up for all small enough learning rates.", "quantifier": "all dimensions, points, losses differentiable at the point, all sufficiently small positive step sizes", "why_tests_cant": "all losses and all small step sizes; tests run a few optimisations with fixed learning rates", "anchors": ["geoopt/manifolds/sphere.py:retr", "geoopt/manifolds/sphere.py:expmap", "geoopt/manifolds/sphere.py:egrad2rgrad", "geoopt/manifolds/stereographic/manifold.py:retr", "geoopt/manifolds/stereographic/manifold.py:expmap", "geoopt/manifolds/stereographic/math.py:_egrad2rgrad", "geoopt/manifolds/lorentz/math.py:_expmap", "geoopt/manifolds/lorentz/math.py:_egrad2rgrad"]}
{"id": "C132", "title": "Small gradient steps decrease the loss on the matrix manifolds", "statement": "For every loss of an n x p matrix that is differentiable at x with Euclidean gradient g and Riemannian gradient r = egrad2rgrad(x, g) different from zero, there is a positive step size below which every gradient step strictly decreases the loss: retr = expmap of CanonicalStiefel (Cayley transform; although there proju doubles tangent vectors and the retraction is not first order), retr of EuclideanStiefel for every QR factorisation that may be returned, retr = expmap of EuclideanStiefelExact, and retr and expmap of SymmetricPositiveDefinite.", "quantifier": "all sizes, points, losses differentiable at the point, all sufficiently small positive step sizes, every QR, eigendecomposition and exponential meeting the contracts", "why_tests_cant": "all losses and all small step sizes; tests run a few optimisations with fixed learning rates", "anchors": ["geoopt/manifolds/stiefel.py:CanonicalStiefel.retr", "geoopt/manifolds/stiefel.py:CanonicalStiefel.proju", "geoopt/manifolds/stiefel.py:EuclideanStiefel.retr", "geoopt/manifolds/stiefel.py:EuclideanStiefel.proju", "geoopt/manifolds/symmetric_positive_definite.py:SymmetricPositiveDefinite.retr", "geoopt/manifolds/symmetric_positive_definite.py:SymmetricPositiveDefinite.expmap", "geoopt/manifolds/symmetric_positive_definite.py:SymmetricPositiveDefinite.egrad2rgrad"]}
{"id": "C133", "title": "Small gradient steps on the Siegel spaces", "statement": "For every real loss of a complex matrix that is differentiable at z with Euclidean gradient g and Riemannian gradient r = egrad2rgrad(z, g) different from zero: on UpperHalf there is a positive step size below which every step z -> retr(z, -t r) strictly decreases the loss, for points strictly inside the clamp of projx. On BoundedDomain the same holds when g is a symmetric matrix. It fails when g is not symmetric, which autograd delivers whenever the loss weights an entry and its mirror differently: egrad2rgrad multiplies before it symmetrises, and there are points and gradients for which every small step raises every loss with that gradient.", "quantifier": "all sizes, points with room to the clamp, losses differentiable at the point, all sufficiently small positive step sizes, every eigendecomposition meeting the contract, both dtypes", "why_tests_cant": "all losses and all small step sizes; the tests use one symmetric matrix per space and never minimise a loss", "anchors": ["geoopt/manifolds/siegel/upper_half.py:egrad2rgrad", "geoopt/manifolds/siegel/upper_half.py:projx", "geoopt/manifolds/siegel/bounded_domain.py:egrad2rgrad", "geoopt/manifolds/siegel/bounded_domain.py:projx", "geoopt/manifolds/siegel/siegel.py:retr"]}
{"id": "C134", "title": "Weight decay on manifolds", "statement": "RiemannianSGD and RiemannianAdam add weight_decay * x to the Euclidean gradient before converting it. On Sphere and on both Stiefel manifolds the Riemannian gradient does not change by that, so whole training runs (any number of parameters, any gradient oracle, any schedule of decays, with stabilisation; SGD without momentum or with points staying on the manifold, and Adam) visit exactly the points visited with weight_decay = 0: the option silently does nothing. On the Poincare ball a step without gradient multiplies the point by 1 - lr * weight_decay / lambda^2 (before project), on Lorentz the decay adds 2 wd/k x0^2 x_i to each spatial component, on SPD matrices it adds wd x^3.", "quantifier": "all dimensions, points, gradients, schedules and numbers of steps", "why_tests_cant": "equality of two whole training trajectories for all schedules; tests do not use weight decay on these manifolds", "anchors": ["geoopt/optim/rsgd.py:step", "geoopt/optim/radam.py:step", "geoopt/manifolds/sphere.py:proju", "geoopt/manifolds/stiefel.py:CanonicalStiefel.proju", "geoopt/manifolds/stiefel.py:EuclideanStiefel.proju", "geoopt/manifolds/stereographic/math.py:_egrad2rgrad", "geoopt/manifolds/lorentz/math.py:_egrad2rgrad", "geoopt/manifolds/symmetric_positive_definite.py:SymmetricPositiveDefinite.egrad2rgrad"]}
{"id": "C135", "title": "An optimizer step with a small learning rate decreases the loss", "statement": "Given a loss of several parameters that is differentiable at their current values, with p.grad the gradients, and at least one parameter whose Riemannian gradient is not zero, there is a learning rate below which one call of RiemannianSGD.step without momentum and weight decay, whatever the optimizer state, and the first call of RiemannianAdam.step without weight decay (with or without amsgrad), strictly decreases the loss. Parameters may be plain tensors, on the sphere, or in the Poincare ball strictly inside the radius of project, mixed in one group; parameters without gradient stay where they are. The same holds for a single parameter on CanonicalStiefel, EuclideanStiefel, EuclideanStiefelExact and SymmetricPositiveDefinite.", "quantifier": "all numbers of parameters and dimensions, all losses differentiable at the values, all hyper-parameters in range, all sufficiently small learning rates", "why_tests_cant": "all losses and all small learning rates; tests run a few optimisations with a fixed learning rate until convergence", "anchors": ["geoopt/optim/rsgd.py:step", "geoopt/optim/radam.py:step", "geoopt/manifolds/sphere.py:retr", "geoopt/manifolds/stereographic/manifold.py:retr", "geoopt/manifolds/euclidean.py:retr"]}
{"id": "C136", "title": "Training on a product manifold is training on its components", "statement": "A parameter on ProductManifold whose gradient consists of the gradients of the components is moved by RiemannianSGD (any schedule of learning rate, momentum, dampening, Nesterov, weight decay and stabilisation) and by RiemannianAdam (amsgrad constant over the run, stabilize not 0) exactly as separate parameters on the component manifolds in one group are: after every number of steps the packed row consists of the rows of the separate parameters. For Adam every component keeps its own second moments. Components may be Euclidean spaces, spheres, balls, hyperboloids and again products.", "quantifier": "all lists of components with their sizes, all gradient oracles, all schedules of hyper-parameters, all numbers of steps", "why_tests_cant": "equality of two whole training trajectories for all oracles and schedules; the tests check single operations on one product", "anchors": ["geoopt/manifolds/product.py:egrad2rgrad", "geoopt/manifolds/product.py:retr", "geoopt/manifolds/product.py:retr_transp", "geoopt/manifolds/product.py:component_inner", "geoopt/manifolds/product.py:projx", "geoopt/manifolds/product.py:proju", "geoopt/optim/rsgd.py:step", "geoopt/optim/radam.py:step"]}
{"id": "C137", "title": "Training on a scaled manifold is training with a rescaled learning rate", "statement": "RiemannianSGD on Scaled(M, s) with learning rate lr visits exactly the points that RiemannianSGD on M visits with learning rate lr / s, for every schedule of hyper-parameters (momentum, Nesterov, weight decay, stabilisation). The same holds for RiemannianAdam when M has the component_inner of class Manifold. It fails for Euclidean: Scaled does not forward component_inner, so already with scale 1 RiemannianAdam uses one second moment for all entries and the first step differs.", "quantifier": "all manifolds, scales, numbers of parameters, gradient oracles, schedules and numbers of steps", "why_tests_cant": "equality of two whole training trajectories; the tests never optimise on a scaled manifold", "anchors": ["geoopt/manifolds/scaled.py:rescale", "geoopt/manifolds/scaled.py:Scaled", "geoopt/manifolds/base.py:component_inner", "geoopt/manifolds/euclidean.py:component_inner", "geoopt/optim/rsgd.py:step", "geoopt/optim/radam.py:step"]}
{"id": "C138", "title": "Rotating the coordinates does not matter", "statement": "The operations of Stereographic (every curvature), Sphere and Lorentz commute with linear maps that preserve dot products (rotations, reflections, permutations; for Lorentz of the space coordinates), and distances do not change. Hence training with RiemannianSGD on the rotated loss from the rotated values visits the rotated points, for Euclidean, Sphere, PoincareBall and Lorentz parameters and all schedules of hyper-parameters; the same for RiemannianAdam on Sphere, PoincareBall and Lorentz. RiemannianAdam on Euclidean parameters depends on the coordinates.", "quantifier": "all dimensions, rotations (one per parameter), losses, schedules and numbers of steps", "why_tests_cant": "equality of two whole training trajectories for all rotations and all losses; the tests use one coordinate system", "anchors": ["geoopt/optim/rsgd.py:step", "geoopt/optim/radam.py:step", "geoopt/manifolds/stereographic/math.py:_mobius_add", "geoopt/manifolds/stereographic/math.py:_expmap", "geoopt/manifolds/stereographic/math.py:_parallel_transport", "geoopt/manifolds/sphere.py:Sphere", "geoopt/manifolds/lorentz/math.py:_expmap", "geoopt/manifolds/base.py:component_inner"]}
{"id": "C139", "title": "Isometries of the hyperboloid", "statement": "Every Lorentz transformation that keeps the direction of time (boosts, rotations of space and their compositions) leaves dist, inner and norm of the Lorentz model unchanged and commutes with expmap, logmap, parallel transport, proju and egrad2rgrad, the Euclidean gradient being carried as a covector. Training one Lorentz parameter with RiemannianSGD without momentum and weight decay on the moved loss visits the moved points, as long as no step is shorter than 1e-4. Shorter steps are not carried along: the step of length 0 fixes the origin but moves its image under every boost.", "quantifier": "all dimensions, curvatures, isometries, losses, schedules of learning rates and numbers of steps", "why_tests_cant": "equality of two whole training trajectories for all isometries; the tests do not move points by isometries", "anchors": ["geoopt/manifolds/lorentz/math.py:_dist", "geoopt/manifolds/lorentz/math.py:_expmap", "geoopt/manifolds/lorentz/math.py:_logmap", "geoopt/manifolds/lorentz/math.py:_parallel_transport", "geoopt/manifolds/lorentz/math.py:_egrad2rgrad", "geoopt/manifolds/lorentz/__init__.py:Lorentz", "geoopt/optim/rsgd.py:step"]}
{"id": "C140", "title": "How parameters are divided into groups does not matter", "statement": "Groups with the same hyper-parameters (any schedule): RiemannianSGD leaves the same parameters and states after any number of steps as with all parameters in one group, also when some parameters have no gradient in some steps, provided no gradient is sparse and stabilize is not 0. The same holds for RiemannianAdam when every parameter has a gradient in every step. Without that it may matter: a parameter without gradient is stabilised when another parameter of its group triggers the stabilisation.", "quantifier": "all numbers of groups and parameters, gradient oracles, schedules and numbers of steps", "why_tests_cant": "equality of two whole training runs for all ways of grouping; the tests use one group", "anchors": ["geoopt/optim/rsgd.py:step", "geoopt/optim/rsgd.py:stabilize_group", "geoopt/optim/radam.py:step", "geoopt/optim/radam.py:stabilize_group", "geoopt/optim/mixin.py:OptimMixin"]}
{"id": "C141", "title": "Training on the matrix manifolds commutes with their symmetries", "statement": "Rotate the rows and columns of a Stiefel parameter, x to Q x R with orthogonal Q and R, and the loss with it. Then RiemannianSGD (all options) and RiemannianAdam (all options) on CanonicalStiefel and on EuclideanStiefelExact produce the rotated trajectory, with rotated momentum buffers and equal second moments. On EuclideanStiefel, whose retraction is a QR factorisation, this holds for rotations of the rows (SGD without momentum, Adam with all options), whichever factorisation the library returns, and fails for rotations of the columns. On SymmetricPositiveDefinite the metric operations, exponential, logarithm, transport and retraction commute with every change of basis x to a x a^T; so do SGD runs without momentum and weight decay and Adam runs without weight decay. With momentum or weight decay SGD does not: the first buffer is the Euclidean gradient.", "quantifier": "all sizes, orthogonal Q and R, invertible a, losses (one per step), option values, starting points and numbers of steps", "why_tests_cant": "Tests run one trajectory in one coordinate system; that the result does not depend on the coordinates chosen for the rows, the columns or the quadratic form is a statement about pairs of runs.", "anchors": ["geoopt/manifolds/stiefel.py:141-274", "geoopt/manifolds/symmetric_positive_definite.py:155-263", "geoopt/optim/rsgd.py:65-117", "geoopt/optim/radam.py:45-120"]}
{"id": "C142", "title": "The exponential maps of the matrix manifolds follow geodesics", "statement": "With matrix_exp the real matrix exponential (the sum of a^k / k!): the curve t to EuclideanStiefel.expmap(x, t u), for x on the manifold and u tangent, starts at x with velocity u, stays on the manifold, and its acceleration is perpendicular to the tangent space, so it is a geodesic of the Euclidean metric; its velocity is tangent with constant length, and restarting expmap at any point of the curve with the velocity there continues the same curve. The curve t to SymmetricPositiveDefinite.expmap(x, t u) solves the geodesic equation c'' = c' c^-1 c' of the affine-invariant metric with constant speed and the same restarting property. SymmetricPositiveDefinite.retr agrees with that geodesic in position, velocity and acceleration at time 0.", "quantifier": "all sizes, points, tangent vectors, times, and all eigendecompositions that may be returned", "why_tests_cant": "A statement about derivatives along whole curves; the tests compare end points with one-step retractions on random inputs", "anchors": ["geoopt/manifolds/stiefel.py:247-274", "geoopt/manifolds/symmetric_positive_definite.py:239-245", "geoopt/linalg/batch_linalg.py:expm", "geoopt/linalg/batch_linalg.py:sym_expm"]}
{"id": "C143", "title": "Training keeps matrix parameters on their manifold", "statement": "Starting on the manifold, after any number of steps with any gradients: RiemannianAdam (all options) leaves a parameter of CanonicalStiefel, EuclideanStiefel (any QR factorisation), EuclideanStiefelExact and SymmetricPositiveDefinite on its manifold with exp_avg tangent there, and on SPD the average keeps its length when it is transported. RiemannianSGD keeps CanonicalStiefel and EuclideanStiefel parameters on the manifold with all options, and EuclideanStiefelExact and SymmetricPositiveDefinite ones without momentum. With momentum the last two may leave the manifold in the first step, because the momentum buffer starts as the Euclidean gradient: on EuclideanStiefelExact even when the Riemannian gradient is zero; on SPD the identity is moved to minus the identity.", "quantifier": "all sizes, starting points, gradient functions, option values and numbers of steps; all QR factorisations, eigendecompositions and exponentials meeting the contracts", "why_tests_cant": "An invariant of whole training runs for all gradients; the tests run fixed losses, and with momentum only on manifolds whose retraction maps everything onto the manifold", "anchors": ["geoopt/manifolds/stiefel.py:141-274", "geoopt/manifolds/symmetric_positive_definite.py:155-263", "geoopt/optim/rsgd.py:65-117", "geoopt/optim/radam.py:45-120", "geoopt/manifolds/base.py:503-530"]}
{"id": "C144", "title": "Training continued from a checkpoint is the same training", "statement": "Train with RiemannianSGD, RiemannianAdam or their sparse versions for n steps, save the state_dict() of optimizer and parameters, and load them in a new process that builds optimizer groups of the same sizes with parameters on the same manifolds (whatever their values and options): the next m steps give exactly the parameters, buffers, options and exceptions of training n+m steps without interruption, also for parameters without gradient, with stabilisation (whose step counter continues) and with options changed by a scheduler. Loading groups of other sizes raises. RiemannianLineSearch does not have this property: the losses and step sizes of earlier steps are attributes that state_dict() does not contain, so with Armijo backtracking the first step after loading is another one.", "quantifier": "all numbers and sizes of groups, all manifolds, all gradients computed from the values, all options and schedules, all n and m", "why_tests_cant": "all interruption points, group layouts and schedules; tests at best save and load once", "anchors": ["geoopt/optim/rsgd.py:65-120", "geoopt/optim/radam.py:45-136", "geoopt/optim/sparse_rsgd.py:60-139", "geoopt/optim/sparse_radam.py:65-159", "geoopt/optim/mixin.py:8-14", "geoopt/optim/rlinesearch.py:174-231"]}
{"id": "C145", "title": "Critical points are fixed points of training", "statement": "When the Riemannian gradients of the loss vanish at the current parameters (or a parameter has no gradient), any number of steps of RiemannianSGD without momentum and weight decay, and of RiemannianAdam without weight decay (with or without amsgrad), run without error and leave every parameter exactly where it is: for flat parameters, points of the sphere, points of the Poincare ball that projx leaves alone, points of CanonicalStiefel, EuclideanStiefel (any QR factorisation), EuclideanStiefelExact and SymmetricPositiveDefinite, with stabilisation and with any schedule of the other options. Two cases fail. With momentum the first SGD step moves away from a critical point, because the momentum buffer starts as the Euclidean gradient: on the sphere it may jump to the antipode. On Lorentz, a parameter whose gradient is zero has its space coordinates multiplied by cosh(1e-4 / sqrt k) in every SGD step, whatever the learning rate, so it drifts out of every bounded set.", "quantifier": "all dimensions, numbers and sizes of groups, gradients computed from the values, options, schedules and numbers of steps", "why_tests_cant": "A statement about arbitrarily long runs from every critical point; tests stop after fixed numbers of steps and accept results close to the optimum", "anchors": ["geoopt/optim/rsgd.py:65-120", "geoopt/optim/radam.py:45-136", "geoopt/manifolds/sphere.py:130-162", "geoopt/manifolds/stereographic/manifold.py:149-234", "geoopt/manifolds/lorentz/math.py:281-320", "geoopt/manifolds/stiefel.py:141-274", "geoopt/manifolds/symmetric_positive_definite.py:239-263"]}
{"id": "C146", "title": "Gradient descent on the sphere finds the minimiser of a linear loss", "statement": "Minimise the loss <a, x> over the Sphere manifold with RiemannianSGD (no momentum, no weight decay, any stabilisation period) and a learning rate with lr |a| <= 1. From every starting point on the sphere except the maximiser a/|a| the parameter converges to the minimiser -a/|a|: after n steps it is on the sphere and its distance to the minimiser is at most 2 tan(angle/2) r^n, with r = (1 + lr |a|)/(1 + 2 lr |a|) < 1 and angle the initial angle to the minimiser. Without the bound on the learning rate this fails: with lr |a| = 40/7 a run alternates between two points for ever.", "quantifier": "all dimensions, vectors a, starting points, learning rates up to 1/|a|, numbers of steps", "why_tests_cant": "convergence is a statement about infinitely many steps from all starting points; tests check that one run gets close", "anchors": ["geoopt/optim/rsgd.py:65-120", "geoopt/manifolds/sphere.py:120-162"]}
{"id": "C147", "title": "Gradient descent on the sphere computes a principal component", "statement": "Minimise the quadratic loss <x, m x> of a symmetric matrix m over the Sphere manifold with RiemannianSGD (no momentum, no weight decay, any stabilisation period), where the smallest eigenvalue of m is simple: the other eigenvalues are larger by at least gap and at most spread. With a learning rate such that 2 lr spread <= 1, from every starting point that is not orthogonal to the eigenvector v of the smallest eigenvalue, the parameter converges to v or -v, whichever is on its side: after n steps it is on the sphere and its distance to it is at most sqrt 2 tan(angle) r^n, with r = 1 - 2 lr gap / (1 + 2 lr spread) < 1 and angle the initial angle to the line of v. Starting points orthogonal to v stay orthogonal to it.", "quantifier": "all dimensions, symmetric matrices with a simple smallest eigenvalue, starting points, learning rates up to 1/(2 spread), numbers of steps", "why_tests_cant": "convergence is a statement about infinitely many steps from all starting points and for all matrices; tests check that one run for one matrix gets close", "anchors": ["geoopt/optim/rsgd.py:65-120", "geoopt/manifolds/sphere.py:120-162"]}
{"id": "C148", "title": "Gradient descent on flat parameters descends, reaches stationary points and minimises convex losses", "statement": "Train a plain tensor (or a parameter of the Euclidean manifold) with RiemannianSGD (no momentum, no weight decay, any stabilisation period) on a loss f whose gradient is L-Lipschitz, with lr L <= 1. Every step lowers the loss by at least lr/2 times the squared norm of the gradient. If f is bounded below by B, the gradients tend to zero, and among the first n there is one whose squared norm is at most 2 (f(x0) - B)/(lr n). If f is convex, after n steps f exceeds its value at any point z by at most |x0 - z|^2/(2 lr n), and no step increases the distance to a minimiser; if f is strongly convex with constant mu, the squared distance to the minimiser shrinks by the factor 1 - lr mu per step. For learning rates with lr L < 2 the loss still decreases and the gradients still tend to zero. For lr L >= 2 this fails: on the loss L x^2 / 2 the loss never gets below its initial value.", "quantifier": "all dimensions, losses with Lipschitz gradient, starting points, learning rates up to 1/L (descent: below 2/L), numbers of steps", "why_tests_cant": "the guarantees quantify over all smooth losses and over infinitely many steps; tests check single runs on a single loss", "anchors": ["geoopt/optim/rsgd.py:65-120", "geoopt/manifolds/euclidean.py:30-70"]}
