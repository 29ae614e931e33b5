# Formal model of geoopt: design

Subject: geoopt/geoopt at the pinned commit in /repo (Python).  The code is read
as text; nothing is executed.  All statements are about a Gallina model in
`rocq/theories` (logical name `Verif`).

## How the code is modelled

Every model definition cites the file and lines it mirrors; a simplification is
stated in the same comment.  Four styles, one per file:

* **Discrete** (`list`, `nat`, `Z`, `option`, result sums): utils, tensor
  construction/pickling/copying, base checks, RNG handling, scaling registry,
  product slicing, tensor shapes, optimizers, line search, samplers, tree
  dataset.  Python exceptions are values of a sum type.  `for`/`while` loops are
  structural recursion (a `while` gets fuel together with a theorem that the fuel
  suffices).  Mutation is explicit state passing; aliasing is modelled by a store
  where it matters (gradients modified in place, deepcopy memo).
* **Real vectors** (`Coq.Reals`): Euclidean, Sphere, Stereographic, Lorentz, and
  the numeric optimizer updates.  One tensor row of size n is a function
  `nat -> R` read on indices `< n`; `x.sum(-1)` is a finite sum.  Batch axes are
  independent copies of the same computation and are not carried around, except
  in the shape models, where they are the subject.
* **Matrices** (mathcomp `'M[F]_(n,p)` over an arbitrary real (closed) field `F`,
  or complex matrices as mathcomp `F[i]`): Stiefel, SPD, Birkhoff, Siegel.
  Theorems quantify over every such field, so they hold for the reals.
* **Abstract manifold**: optimizers, samplers and wrappers are parametrised by a
  record of functions standing for the Python manifold object.

Numbers: torch floats are modelled by exact reals.  The constants the code uses
(1e-15, EPS tables, clamps) are kept literally, and theorems are stated with the
clamps in place, so a hypothesis such as "`|<x,y>| <= 1 - EPS`" is the code's own
guard.  Rounding, overflow, NaN/inf are *not* modelled.

External calls (`linalg.solve`, `qr`, `svd`, `eigh`, `randn`, the user's closure,
scipy line searches) are universally quantified functions or values constrained
only by their documented contract (e.g. "solve returns a solution"), as closed
Section variables; never axioms.

## Trusted base

* Coq 8.16.1 kernel (`coqc`, `vm_compute` not used for trusted reduction beyond
  the kernel's own conversion).
* Axioms, as printed by `Print Assumptions` under each theorem: files using
  `Coq.Reals` depend on the standard library's `ClassicalDedekindReals.sig_forall_dec`,
  `ClassicalDedekindReals.sig_not_dec`, `FunctionalExtensionality.functional_extensionality_dep`
  and, where classical case analysis on propositions or Coquelicot is used,
  `Classical_Prop.classic`.  Discrete and matrix theorems are closed under the global
  context.  Only examples that instantiate the matrix contracts at the real numbers
  (`RStruct.v`) additionally use `Epsilon.epsilon_statement` of the standard library.
  No axiom is declared by this development.
* Libraries: mathcomp (with real_closed) for matrices, Coquelicot for derivatives in
  `StereoTaylor.v` and `StereoAntipode.v`; they add no axiom.
* The faithfulness of the transcription from Python to Gallina (checked by
  reading and by the seeded-bug log `seeded/LOG.jsonl`).
* torch/Python semantics used by the model: right-aligned broadcasting, Python
  `%` with negative divisor, attribute lookup order, `torch.where`, in-place
  operators, `acos/asin` on [-1,1], `isclose(k,0)` meaning `|k| <= 1e-8`.

## What is modelled

| source (geoopt/) | model | modelled | not modelled |
|---|---|---|---|
| utils.py | UtilsModel | broadcast_shapes, idx2sign, drop_dims, canonical_dims, canonical_manifold, size2shape, make_tuple, strip_tuple, sabs/clamps in NumProofs | ismanifold's import-time plumbing, `copy_or_set_` storage flags |
| tensor.py | TensorModel | construction, `__reduce_ex__`, deepcopy memo, `proj_`, dist | torch subclass dispatch |
| manifolds/base.py | BaseModel, ScaledModel, LibraryModel | shape, point and vector checks, `origin`, scaling registry, signatures | docstrings, abstract methods |
| manifolds/scaled.py | ScaledModel, ScaledClassModel | rescale, attribute lookup, construction, pickling | |
| manifolds/product.py | ProductModel, ProductNumModel | slicing, packing, componentwise operations, inner, dist, StereographicProductManifold | device/dtype moves |
| manifolds/sphere.py | SphereModel (rows), SphereNdModel (tensors) | Sphere, SphereExact, subspace projectors, checks | QR itself (contract) |
| manifolds/stereographic/math.py | StereoModel, StereoBatchModel, NdModel, StereoPlane | curvature trigonometry with Taylor branches, all Moebius and geodesic operations on one row, batch branch of sin_k/arsin_k, `dim`/`keepdim`/broadcasting of every function in NdModel and StereoNdModel (curvature 0-dimensional); StereoExtraModel for matvec, pointwise product, fn_apply, midpoint | autograd |
| manifolds/stereographic/manifold.py | StereoModel, LibraryModel, StereoExtraModel | class methods as calls of math.py; PoincareBall / SphereProjection curvature | pytorch parameter registration |
| manifolds/stereographic/math.py, lorentz/math.py, sphere.py, utils.py in IEEE arithmetic | FloatModel | tanh, artanh, arsinh, sabs, tan_k, artan_k, arsin_k (k < 0), _dist and _project from the computed norm, guarded quotients, Sphere.dist from the inner product, Lorentz arcosh, inner, dist, project on two coordinates | sums of more than two terms (contract of the norm), bfloat16 and half, fused or flush-to-zero arithmetic; every other model computes with exact reals |
| manifolds/stiefel.py | StiefelModel, StiefelNdModel | both metrics, one matrix and batches of any shape | QR, SVD, solve (contracts) |
| manifolds/symmetric_positive_definite.py, linalg/batch_linalg.py | SpdModel, SpdNdModel, MatNdModel | all metrics, exp/log/sqrt, checks, random | eigh, matrix_exp (contracts); `expm` fallbacks |
| manifolds/birkhoff_polytope.py | BirkhoffModel, BirkhoffNdModel | Sinkhorn loop, proju, checks, random, origin | solver (contract) |
| manifolds/lorentz | LorentzModel (rows), LorentzNdModel (tensors with dim) | math.py and class | |
| manifolds/siegel | SiegelModel, SiegelNdModel | csym_math, upper half space, bounded domain, all metrics | eigh/eigvalsh (contracts) |
| manifolds/euclidean.py | EuclideanModel (tensors with shapes), OptimInstances | all methods | dtypes; norm over more than two axes is taken to be the Frobenius norm |
| optim | OptimModel, SparseModel, LineSearchModel, CheckpointModel | rsgd, radam, both sparse optimizers, mixin, Riemannian line search with Armijo, Wolfe and conjugate gradients | scipy's own search (oracle), torch's `state_dict`/`load_state_dict` (contract in CheckpointModel) |
| samplers | SamplerModel | RHMC, RSGLD, SGRHMC, base class | torch RNG (draws are arguments) |
| datasets/stereographic.py | TreeModel | StereographicTreeDataset | download helpers |
| layers/stereographic.py | LayerModel | Distance2StereographicHyperplanes | parameter initialisation values |

## Properties, plan and assumptions

Letters after a theorem name: axioms listed by `Print Assumptions` (D1 sig_forall_dec, D2 sig_not_dec, F functional_extensionality_dep, C classic); no letter means closed under the global context.

* **C01 broadcast_shapes is numpy broadcasting** (proved) - Discrete model of the loop; spec = declarative right-aligned compatibility; equivalence by induction over rank and over the list of shapes; refutation for zero sizes. In `UtilsProps.v`: `C01_broadcast_shapes_correct`, `C01_broadcast_shapes_raises`, `C01_broadcast_unique`, `C01_broadcast_order_irrelevant`, `C01_broadcast_empty_axis_refuted`, `C01_broadcast_empty_axis_order_refuted`. The result shape is proved to be the broadcast of its arguments; the two refuted theorems show the zero-length-axis case.
* **C02 axis index conversion round-trips** (proved) - Z arithmetic with Python floor modulo (Z.modulo agrees, including negative divisors). In `UtilsProps.v`: `C02_negative_alias`, `C02_nonnegative_alias`, `C02_round_trip`, `C02_canonical_dims`.
* **C03 drop_dims removes exactly the listed axes** (proved) - Shape-level model of the squeeze loop; spec = filter of positions; induction over the sorted list; refutation by computation for an unsorted/negative list. In `UtilsProps.v`: `C03_drop_dims_ascending`, `C03_drop_dims_unsorted_refuted`. Proved for ascending dims; refuted theorem gives the unsorted case.
* **C04 size arguments are canonicalised** (proved) - Small inductive type of Python arguments; case analysis. In `UtilsProps.v`: `C04_size2shape_variadic`, `C04_size2shape_forms_agree`, `C04_strip_make_tuple`.
* **C05 canonical manifold of nested scalings** (proved) - Inductive type of manifold objects with Scaled layers; structural induction. In `UtilsProps.v`: `C05_canonical_strips_all`, `C05_canonical_never_scaled`, `C05_ismanifold_sees_innermost`.
* **C06 regularised sign, abs and clamp_abs are safe denominators** (proved) - Real case analysis. In `BaseProps.v`: `C06_sign` [F D1], `C06_sabs` [F D1], `C06_clamp_abs` [F D1], `C06_clamp_abs_nonzero` [F D1].
* **C07 pickling a ManifoldTensor is lossless** (proved) - Pickle arguments as list of values with positional slicing; list lemmas for all argument lists. In `BaseProps.v`: `C07_roundtrip`.
* **C08 deepcopy preserves sharing and isolates copies** (proved) - Store + memo state machine; invariant by induction over the list of references. In `BaseProps.v`: `C08_faithful`, `C08_storage_sharing_refuted`.
* **C09 ManifoldTensor.dist honours p** (proved) - Model of dist dispatch over real vectors; refutation with concrete vectors; positive part for p = 'g'. In `BaseProps.v`: `C09_geodesic` [F D1 D2], `C09_default` [F D1 D2], `C09_p_refuted` [F D1 D2].
* **C10 ManifoldParameter construction never silently changes the manifold** (proved) - Case analysis over data kind and manifold argument. In `BaseProps.v`: `C10_from_plain`, `C10_from_manifold_tensor`, `C10_mismatch_raises`, `C10_shape_enforced`.
* **C11 check and assert_check agree** (proved) - Abstract manifold predicates; equivalence for all of them. In `BaseProps.v`: `C11_point`, `C11_vector`, `C11_point_on_manifold`, `C11_vector_on_tangent`, `C11_vector_on_tangent_means`, `C11_reasons`, `C11_default_shape`.
* **C12 origin with a seed does not disturb the global random stream** (proved) - State monad with exceptions over an abstract generator. In `BaseProps.v`: `C12_cpu_stream_restored`, `C12_deterministic`, `C12_cuda_stream_refuted`.
* **C13 Scaled multiplies distances and only distances** (proved) - Model of rescale over named arguments and results; theorem for each registered method. In `ScaledProps.v`: `C13_library_registry`, `C13_dist` [F D1], `C13_dist2` [F D1], `C13_logmap` [F D1], `C13_direction` [F D1], `C13_direction_transport` [F D1], `C13_unchanged` [F D1], `C13_incompatible` [F D1], `C13_dist0` [F D1], `C13_logmap0` [F D1], `C13_expmap0` [F D1], `C13_dist2plane` [F D1], `C13_geodesic_unit` [F D1], `C13_learnable_scale` [C F D1 D2].
* **C14 Scaled preserves the exp/log/dist laws and nests multiplicatively** (proved) - Algebra on top of the model of C13 for an arbitrary base; induction over nesting depth. In `ScaledProps.v`: `C14_exp_log` [F D1], `C14_log_exp` [F D1], `C14_norm_log` [F D1], `C14_unit_speed` [F D1], `C14_nesting` [F D1], `C14_nesting_unchanged` [F D1].
* **C15 Scaled forwards the public methods of its base** (proved) - Attribute lookup model (instance dict, class MRO, __getattr__); positive theorem for non-Manifold methods and refutations. In `ScaledProps.v`: `C15_forwarding` [F D1], `C15_refuted` [F D1], `C15_component_inner_differs` [F D1].
* **C16 Scaled construction succeeds for every manifold** (proved) - Class tables (registry keys, method names) transcribed; decision by computation over the finite class list is a finite check of a finite claim; refutation. In `ScaledProps.v`: `C16_constructible_iff`, `C16_constructible`, `C16_refuted`.
* **C17 product packing is a bijection** (proved) - Lists for flat data, shapes as list nat; prefix-sum lemmas, induction over components. In `ProductProps.v`: `C17_slices_partition`, `C17_slice_width`, `C17_unpack_shapes`, `C17_unpack_pack`, `C17_pack_unpack`, `C17_unpack_injective`, `C17_pack_raises`, `C17_empty_batch_refuted`, `C17_from_point`, `C17_from_point_raises`.
* **C18 product operations act component by component** (proved) - Componentwise map model; nth lemmas by induction. In `ProductProps.v`: `C18_operation`, `C18_projx`, `C18_pair_operation`, `C18_sums` [F D1], `C18_check_point`, `C18_check_vector`, `C18_check_reason`, `C18_from_components`.
* **C19 product distance is a metric up to the clamp** (proved) - Real sums; Minkowski inequality proved from Cauchy-Schwarz by induction. In `ProductProps.v`: `C19_value` [F D1 D2], `C19_symmetric` [F D1 D2], `C19_triangle` [F D1 D2], `C19_self_refuted` [F D1 D2].
* **C20 StereographicProductManifold samples and signed distances** (proved) - Model with noise universally quantified; sample = mean for all noise. In `ProductProps.v`: `C20_wrapped_normal_refuted` [F D1 D2], `C20_signed_refuted` [C F D1 D2].
* **C21 sphere operations stay on the sphere** (proved) - Real vectors, dot product algebra, cos^2+sin^2=1. In `SphereProps.v`: `C21_projx` [F D1 D2], `C21_projx_fixes_points` [F D1 D2], `C21_random` [F D1 D2], `C21_retr` [F D1 D2], `C21_retr_formula` [F D1 D2], `C21_expmap` [F D1 D2].
* **C22 sphere tangent projection** (proved) - Dot product algebra. In `SphereProps.v`: `C22_linear` [F D1], `C22_tangent` [F D1], `C22_fixes_tangent` [F D1], `C22_self_adjoint` [F D1], `C22_gradient` [F D1], `C22_transport_tangent` [F D1].
* **C23 sphere exp, log and dist agree** (proved) - acos/cos lemmas from stdlib Ratan/Rtrigo; clamp arguments explicit. In `SphereProps.v`: `C23_log_tangent` [C F D1 D2], `C23_log_norm` [C F D1 D2], `C23_exp_log` [C F D1 D2], `C23_log_exp` [C F D1 D2], `C23_dist_exp` [C F D1 D2], `C23_dist_is_angle` [C F D1 D2], `C23_dist_symmetric` [C F D1 D2], `C23_dist_bounds` [C F D1 D2], `C23_dist_triangle` [C F D1 D2], `C23_dist_orthogonal_invariant` [C F D1 D2], `C23_dist_self_refuted` [C F D1 D2].
* **C24 Sphere shape validation** (proved) - Decision logic over shapes. In `SphereProps.v`: `C24_no_subspace`, `C24_too_few_dims_refuted`, `C24_stale_reason_refuted`.
* **C25 Cayley retraction stays on the Stiefel manifold** (proved) - mathcomp: I - A/2 is a unit because A is skew over a real field (kernel argument); orthogonality of the Cayley map. In `StiefelProps.v`: `C25_solvable`, `C25_on_manifold`, `C25_retr_transp`, `C25_zero`.
* **C26 Cayley transport is isometric, tangent and reversible** (proved) - mathcomp matrix algebra. In `StiefelProps.v`: `C26_tangent`, `C26_isometry`, `C26_linear`, `C26_reversible_point`, `C26_reversible_vector`.
* **C27 canonical Stiefel gradient; proju is not a projection** (proved) - mathcomp matrix algebra and trace; 2x2 witness. In `StiefelProps.v`: `C27_tangent`, `C27_gradient`, `C27_inner_is_canonical`, `C27_projection_refuted`, `C27_fixed_vectors`.
* **C28 Euclidean Stiefel projection and retractions** (proved) - mathcomp; QR/SVD contracts as hypotheses. In `StiefelProps.v`: `C28_proju_tangent`, `C28_proju_fixes`, `C28_proju_orthogonal`, `C28_transport`, `C28_gradient`, `C28_retr_on_manifold`, `C28_retr_well_defined`, `C28_retr_zero`, `C28_projx_on_manifold`, `C28_projx_fixes`, `C28_projx_nearest`, `C28_expmap_on_manifold`.
* **C29 SPD retraction and projection stay symmetric positive definite** (proved) - mathcomp; positive definiteness as a predicate on column vectors; Schur-like decomposition. In `SpdProps.v`: `C29_retr_spd`, `C29_retr_second_order`, `C29_proju_symmetric`, `C29_projx_semidefinite`, `C29_projx_spd`, `C29_projx_fixes`, `C29_projx_refuted`, `C29_random_origin`.
* **C30 SPD metric and gradient** (proved) - mathcomp; trace identities. In `SpdProps.v`: `C30_symmetric`, `C30_linear`, `C30_positive`, `C30_congruence`, `C30_gradient`, `C30_gradient_tangent`.
* **C31 SPD exp and log are inverse** (proved) - mathcomp; functional calculus from an eigendecomposition, independence of the chosen eigenbasis. In `SpdProps.v`: `C31_expmap_spd`, `C31_logmap_tangent`, `C31_log_exp`, `C31_exp_log`, `C31_transp_tangent`, `C31_transp_isometry`, `C31_transp_velocity`, `C31_well_defined`.
* **C32 membership checks reject points off the manifold** (proved) - Literal check models; refutations by witness; soundness/completeness at tolerance 0 where it holds. In `BirkhoffProps.v`, `LorentzProps.v`, `SpdProps.v`, `SphereProps.v`, `StiefelProps.v`: `C32_birkhoff_point`, `C32_birkhoff_negative_refuted`, `C32_birkhoff_vector`, `C32_lorentz_check` [F D1], `C32_lorentz_upper_sheet` [F D1], `C32_lorentz_refuted` [F D1 D2], `C32_lorentz_vector` [F D1], `C32_spd_zero_tolerance`, `C32_spd_accepts`, `C32_spd_tolerance`, `C32_spd_singular_refuted`, `C32_spd_negative_refuted`, `C32_spd_vector`, `C32_sphere_point` [F D1 D2], `C32_stiefel_point`, `C32_stiefel_point_tolerance`, `C32_stiefel_vector`, `C32_stiefel_origin`.
* **C33 Sinkhorn projection** (proved) - Fuelled loop over real matrices; invariants by induction on rounds. In `BirkhoffProps.v`: `C33_shape_and_sign`, `C33_rows`, `C33_stopped`, `C33_stopped_accepted`, `C33_tiny_refuted`.
* **C34 Birkhoff tangent projection** (proved) - Energy identity x_ij (p_i+q_j)^2 >= 0 gives uniqueness; no invertibility assumption. In `BirkhoffProps.v`: `C34_tangent`, `C34_any_solution`, `C34_gradient`, `C34_gradient_unique`, `C34_form`, `C34_transport`, `C34_metric`.
* **C35 Moebius addition is a gyrogroup operation** (proved) - Real vectors; rational identities by field/ring on dot products. In `StereoProps.v`: `C35_identity` [F D1], `C35_left_inverse` [F D1], `C35_left_cancellation` [F D1], `C35_left_cancellation_ball` [F D1 D2], `C35_gyration_isometry` [F D1], `C35_gyroassociative` [F D1], `C35_gyroassociative_ball` [F D1 D2], `C35_gyrocommutative` [F D1], `C35_left_loop` [F D1], `C35_gyration_inverse` [F D1]. All laws proved for every dimension, curvature and point whose Moebius denominator is not clamped; ball versions discharge that hypothesis for k<0.
* **C36 Moebius operations stay in the ball** (proved) - Cauchy-Schwarz and polynomial inequalities. In `StereoProps.v`: `C36_add_in_ball` [F D1 D2], `C36_denominator_positive` [F D1 D2], `C36_expmap_in_ball` [F D1 D2], `C36_expmap0_in_ball` [F D1 D2], `C36_geodesic_in_ball` [C F D1 D2], `C36_geodesic_unit_in_ball` [F D1 D2], `C36_scalar_mul_in_ball` [C F D1 D2], `C36_small_curvature_refuted` [F D1 D2], `C36_project_norm` [F D1 D2], `C36_project_safe` [F D1 D2], `C36_project_fixes_inside` [F D1 D2], `C36_project_idempotent` [F D1 D2], `C36_project_to_boundary` [F D1 D2]. Closure proved for every operation for k outside (-1e-8,0); the small-curvature case is refuted (expmap0 leaves the ball), which is the code behaviour.
* **C37 stereographic distance** (proved) - Via left cancellation and gyration isometry; artan_k monotonicity. In `StereoApproxProps.v`, `StereoProps.v`: `C37_triangle_library` [C F D1 D2], `C37_triangle_ball` [C F D1 D2], `C37_nonneg` [C F D1 D2], `C37_symmetric` [C F D1 D2], `C37_self` [C F D1 D2], `C37_separates` [C F D1 D2], `C37_dist0` [C F D1 D2], `C37_flat` [C F D1 D2], `C37_left_invariant` [C F D1 D2], `C37_triangle_exact` [C F D1 D2], `C37_triangle_refuted` [C F D1 D2], `C37_negative_distance_refuted` [C F D1 D2], `C37_antipodal_refuted` [C F D1 D2]. Metric laws for closed-form curvatures (k = 0 or |k| > 1e-8) and unclamped Moebius denominators. Triangle inequality: exact for the formula without the sabs eps, up to the factor 1 + 3e6 e/|k| with it (C37_triangle_library, clamps included); exactness with e = 1e-15 is refuted. Negative distance for 0<k<=1e-8 and antipodal distance 0 are refuted.
* **C38 stereographic exp and log are inverse** (proved) - tan_k/artan_k inverse on the clamp-free domain, left cancellation. In `StereoProps.v`: `C38_exp_log` [C F D1 D2], `C38_log_exp` [C F D1 D2], `C38_exp_log_ball` [C F D1 D2], `C38_log_exp_ball` [C F D1 D2], `C38_expmap0` [F D1 D2], `C38_logmap0` [C F D1 D2], `C38_norm_log_is_dist` [C F D1 D2]. Inverse laws proved for all dimensions and closed-form curvatures on the region where no clamp is active.
* **C39 stereographic geodesics** (proved) - From C35, C38, C43. In `StereoProps.v`: `C39_start` [C F D1 D2], `C39_end` [C F D1 D2], `C39_proportional` [C F D1 D2], `C39_proportional_ball` [C F D1 D2], `C39_unit_start` [F D1 D2], `C39_unit_speed` [C F D1 D2].
* **C40 stereographic parallel transport** (proved) - Gyration isometry and conformal factors. In `StereoProps.v`: `C40_linear` [F D1], `C40_isometry` [F D1], `C40_inverse` [F D1], `C40_transp0` [F D1], `C40_transp0_inverse` [F D1].
* **C41 stereographic metric and gradient** (proved) - Dot product algebra. In `StereoProps.v`: `C41_inner_symmetric` [F D1], `C41_inner_linear` [F D1], `C41_inner_positive` [F D1], `C41_gradient` [F D1], `C41_norm` [F D1 D2].
* **C42 shape of Stereographic.inner** (proved) - Shape algebra. In `StereoProps.v`: `C42_rank_refuted`, `C42_square_refuted`, `C42_keepdim_shape`, `C42_norm_shape`, `C42_cross_terms_refuted` [F D1]. False of the code: shape/batch defects exhibited by the refuted theorems; keepdim and norm shapes proved.
* **C43 Moebius scalar multiplication** (proved) - Additivity of artanh/artan under Moebius addition of parallel vectors. In `StereoApproxProps.v`, `StereoProps.v`: `C43_distributive_ball` [C F D1 D2], `C43_distributive_sphere` [C F D1 D2], `C43_distributive_refuted` [C F D1 D2], `C43_one` [C F D1 D2], `C43_associative` [C F D1 D2], `C43_distance_scales` [C F D1 D2], `C43_distributive_exact` [C F D1 D2]. Distributivity: exact for the formula without the sabs eps, up to a factor within e/|k| (times cosh(M)^2 or 1/(1-tan(M)^2)) of 1 with it; exactness with e = 1e-15 is refuted.
* **C44 stereographic projection is a bijection** (proved) - field. In `StereoProps.v`: `C44_into_surface` [F D1 D2], `C44_left_inverse` [F D1 D2], `C44_right_inverse` [F D1 D2].
* **C45 curvature trigonometry does not depend on the batch** (proved) - Model of both branches for one element; equality off the near-zero region, refutation inside. In `StereoProps.v`: `C45_tan_k` [F D1 D2], `C45_artan_k` [C F D1 D2], `C45_sin_k` [F D1 D2], `C45_arsin_k` [C F D1 D2], `C45_sin_k_refuted` [F D1 D2], `C45_arsin_k_refuted` [C F D1 D2]. tan_k/artan_k proved batch independent; sin_k/arsin_k proved on the region where it holds and refuted outside.
* **C46 Lorentz operations stay on the hyperboloid** (proved) - Minkowski form algebra, cosh^2-sinh^2=1. In `LorentzProps.v`: `C46_projx` [F D1 D2], `C46_projx_fixes_points` [F D1 D2], `C46_proju_tangent` [F D1], `C46_proju_fixes_tangent` [F D1], `C46_proju_orthogonal` [F D1], `C46_expmap` [F D1 D2], `C46_expmap_formula` [F D1 D2], `C46_expmap0` [F D1 D2], `C46_geodesic_unit` [F D1 D2], `C46_origin` [F D1 D2], `C46_expmap_zero` [C F D1 D2], `C46_expmap_zero_refuted` [C F D1 D2].
* **C47 Lorentz exp, log, dist and transport agree** (proved) - arcosh/cosh inverse, Minkowski algebra. In `LorentzProps.v`: `C47_dist_is_hyperbolic` [C F D1 D2], `C47_logmap_tangent` [C F D1 D2], `C47_logmap_norm` [C F D1 D2], `C47_expmap_logmap` [C F D1 D2], `C47_logmap_expmap` [C F D1 D2], `C47_expmap_distance` [C F D1 D2], `C47_transport_tangent` [C F D1 D2], `C47_transport_isometry` [C F D1 D2], `C47_transport_velocity` [C F D1 D2], `C47_transport_self` [C F D1 D2], `C47_follow_expmap` [C F D1 D2], `C47_origin_versions` [C F D1 D2], `C47_geodesic_unit_speed` [C F D1 D2], `C47_geodesic_unit_is_expmap` [F D1 D2].
* **C48 Lorentz gradient conversion has no side effects** (proved) - Store model with explicit in-place effect. In `LorentzProps.v`: `C48_is_gradient` [F D1], `C48_argument_changed_refuted` [F D1], `C48_second_call` [F D1], `C48_second_call_refuted` [F D1].
* **C49 Lorentz polar projection and ball conversions** (proved) - Real algebra; rank-level shape model. In `LorentzProps.v`: `C49_polar` [F D1 D2], `C49_to_ball` [F D1 D2], `C49_to_hyperboloid` [F D1 D2], `C49_ball_round_trip` [F D1 D2], `C49_hyperboloid_round_trip` [F D1 D2], `C49_isometry` [F D1 D2], `C49_axes`, `C49_vector_refuted`.
* **C50 Siegel Cayley transforms are inverse** (proved) - mathcomp matrices over a field with i^2=-1. In `SiegelProps.v`: `C50_inverse_left`, `C50_inverse_right`, `C50_raises`, `C50_symmetry`, `C50_models`.
* **C51 Siegel gradients are symmetric and represent the differential** (proved) - mathcomp complex matrices. In `SiegelProps.v`: `C51_upper_half_gradient`, `C51_upper_half_inner`, `C51_bounded_domain_symmetric`, `C51_bounded_domain_where_real`, `C51_bounded_domain_refuted`. Upper half space proved; bounded domain refuted (C51_bounded_domain_refuted) and proved where conj(z) z is real.
* **C52 Takagi factorisation** (proved) - mathcomp; block eigen-equations; eigh contract as hypothesis. In `SiegelProps.v`: `C52_takagi`, `C52_eigvals`, `C52_compound_pairs`, `C52_unitary_refuted`. Proved for every ascending eigendecomposition; unitarity only for positive Takagi values, refuted for singular matrices.
* **C53 vector-valued distance metrics** (proved) - Lists of weights for arbitrary rank. In `SiegelProps.v`: `C53_riemannian`, `C53_finsler_one`, `C53_finsler_infinity`, `C53_weighted_sum`, `C53_minimum_entropy`, `C53_minimum_entropy_refuted`, `C53_rank`, `C53_rank_mismatch`. All metrics proved; the documented minimum entropy weights are refuted.
* **C54 RiemannianSGD keeps parameters on their manifolds** (proved) - State machine over an abstract manifold with laws; invariant by induction on the history; instances Sphere, Euclidean, Stiefel. In `OptimProps.v`: `C54_no_momentum` [F D1], `C54_momentum` [F D1], `C54_absorbing` [F D1], `C54_no_gradient` [F D1], `C54_sparse_gradient_raises` [F D1].
* **C55 RiemannianSGD on Euclidean parameters is SGD** (proved) - Real-valued trajectories; induction for momentum 0; concrete witness otherwise. In `OptimProps.v`: `C55_no_momentum` [F D1], `C55_momentum_gap` [F D1], `C55_momentum_refuted` [F D1].
* **C56 RiemannianSGD search directions are tangent** (proved) - Invariant on the state machine; witness for step one. In `OptimProps.v`: `C56_direction` [F D1], `C56_from_second_step` [F D1], `C56_first_step_refuted` [F D1 D2], `C56_critical_point_moves_refuted` [F D1 D2], `C56_stale_buffer_refuted` [F D1 D2].
* **C57 RiemannianAdam moments are well formed** (proved) - State machine with real moments; invariant by induction. In `OptimProps.v`: `C57_invariant` [F D1 D2], `C57_step_defined` [F D1 D2], `C57_counts_gradients` [F D1 D2], `C57_amsgrad_running_maximum` [F D1 D2], `C57_amsgrad_late_refuted` [F D1 D2].
* **C58 sparse optimizers touch only the rows in the gradient** (proved) - Rows as lists; update restricted to an index set. In `SparseProps.v`: `C58_sgd_only_named_rows` [F D1], `C58_adam_only_named_rows` [F D1 D2], `C58_sgd_as_dense` [F D1], `C58_adam_as_dense` [F D1 D2], `C58_duplicates_add` [D1], `C58_rows_independent` [F D1], `C58_late_rows_refuted` [F D1], `C58_sgd_dense_refused` [F D1], `C58_adam_dense_refused` [F D1 D2], `C58_sgd_dense_error` [F D1], `C58_adam_dense_error` [F D1 D2].
* **C59 sparse AMSGrad keeps a running maximum** (proved) - Two-step witness and general characterisation. In `SparseProps.v`: `C59_stored_value` [F D1 D2], `C59_running_maximum_refuted` [F D1 D2].
* **C60 stabilisation period** (proved) - Counter invariant. In `OptimProps.v`: `C60_period` [F D1], `C60_never` [F D1], `C60_projected` [F D1], `C60_plain_untouched` [F D1], `C60_zero_raises_refuted` [F D1], `C60_adam` [F D1 D2].
* **C61 line search trial evaluations are side-effect free** (proved) - Store model of _phi with memo dictionary; induction over the trial sequence. In `LineSearchProps.v`: `C61_unchanged` [F D1], `C61_values` [F D1], `C61_start` [F D1].
* **C62 line search derivative matches the requested step** (proved) - Same model; characterisation of the returned value; witness. In `LineSearchProps.v`: `C62_exact` [F D1], `C62_new_step` [F D1], `C62_refuted` [F D1].
* **C63 line search returns the loss of the accepted point** (proved) - Same model, step function; witness. In `LineSearchProps.v`: `C63_last` [F D1], `C63_point` [F D1], `C63_tried` [F D1], `C63_untried` [F D1], `C63_untried_refuted` [F D1].
* **C64 line search uses a descent direction** (proved) - Real inner products; case analysis. In `LineSearchProps.v`: `C64_descent` [F D1].
* **C65 RHMC rejection restores the state** (proved) - State machine with oracle draws. In `SamplerProps.v`: `C65_decision` [F D1 D2], `C65_rejected_momentum` [F D1 D2], `C65_late_gradient_refuted` [F D1 D2], `C65_remembered` [F D1 D2], `C65_counters` [F D1 D2], `C65_evaluations` [F D1 D2], `C65_overflow_refuted` [F D1 D2].
* **C66 RHMC proposals are time reversible** (proved) - Concrete integrator on the real line; witness; general one-dimensional statement. In `SamplerProps.v`: `C66_there_and_back` [F D1 D2], `C66_returns_iff` [F D1 D2], `C66_refuted` [F D1 D2].
* **C67 StereographicTreeDataset enumerates the whole tree** (proved) - Queue invariant by induction; geometric sum. In `TreeProps.v`: `C67_tree` [F D1 D2], `C67_count`, `C67_whole`, `C67_chain_refuted` [F D1 D2], `C67_unusable` [F D1 D2], `C67_directions` [F D1 D2], `C67_directions_root` [F D1 D2], `C67_directions_two` [F D1 D2].
* **C68 hyperplane distance layer shape** (proved) - Shape algebra. In `LayerProps.v`: `C68_forward` [C F D1 D2], `C68_rejects` [C F D1 D2].
* **C69 Sphere subspace is the one asked for** (proved) - Span/complement projectors as idempotent real matrices; witness where the QR basis misses a direction. In `SphereProps.v`: `C69_intersection` [F D1], `C69_complement` [F D1], `C69_rank_deficient_refuted` [F D1].
* **C70 Sphere tangent check respects the subspace** (proved) - Literal check; witness. In `SphereProps.v`: `C70_tangent_check` [F D1], `C70_subspace_unchecked_refuted` [F D1].
* **C71 Scaled: gradients agree with the scaled exponential map** (proved) - Chain rule on the model of C13. In `ScaledProps.v`: `C71_gradient_factor` [F D1], `C71_refuted` [F D1].
* **C72 Scaled manifolds survive pickling** (proved) - Pickle model (class, constructor arguments, state). In `ScaledProps.v`: `C72_refuted`, `C72_load_fails`, `C72_stub_load_fails`.
* **C73 Scaled calls its base with arguments the base accepts** (proved) - Class tables transcribed from the source: signatures against calls. In `ScaledProps.v`: `C73_binding`, `C73_delegating_calls`, `C73_registered_arguments`, `C73_missing_argument_raises` [F D1], `C73_refuted` [F D1].
* **C74 geodesic_unit of a stereographic product is unit speed** (proved) - Componentwise model; sums of squares. In `ProductProps.v`: `C74_speed_refuted` [C F D1 D2], `C74_unit_vector_refuted` [C F D1 D2].
* **C75 Moebius operations of a stereographic product accept every component shape** (proved) - Shape model of the reshapes. In `ProductProps.v`: `C75_vector_components`, `C75_matrix_components_refuted`.
* **C76 the Cayley map of CanonicalStiefel is a retraction** (proved) - First-order expansion of the Cayley map as a matrix identity with explicit quadratic remainder. In `StiefelProps.v`: `C76_expansion`, `C76_first_order_refuted`.
* **C77 the canonical Stiefel inner product is a Riemannian metric** (proved) - Trace identities; positivity from the kernel of a skew matrix. In `StiefelProps.v`: `C77_symmetric`, `C77_linear`, `C77_bound`, `C77_definite`.
* **C78 SPD distances: affine-invariant and log-Euclidean are metrics-like, Stein is not** (proved) - Functional calculus of C31; refutation by witness for Stein. In `SpdProps.v`: `C78_aim_length`, `C78_aim_expmap`, `C78_aim_symmetric`, `C78_aim_zero`, `C78_aim_congruence`, `C78_lem_metric`, `C78_stein_divergence`, `C78_stein_triangle_refuted`.
* **C79 Birkhoff retraction and sampling** (proved) - Fuelled Sinkhorn loop; positivity and scaling invariants. In `BirkhoffProps.v`: `C79_retr_entries`, `C79_retr_rows`, `C79_retr_stopped`, `C79_random`, `C79_batch_refuted`.
* **C80 Birkhoff proju is not a projection and fails at origin()** (proved) - Witness matrices. In `BirkhoffProps.v`: `C80_not_idempotent_refuted`, `C80_transp_refuted`, `C80_origin_refuted`.
* **C81 Lorentz sampling uses its standard deviation** (proved) - Draw universally quantified; bound on the distance. In `LorentzProps.v`: `C81_on_hyperboloid` [F D1 D2], `C81_std_ignored` [F D1 D2], `C81_bounded` [C F D1 D2].
* **C82 Lorentz distance is a metric up to its floor** (proved) - Reversed Cauchy-Schwarz and arcosh monotonicity. In `LorentzProps.v`: `C82_symmetric` [C F D1 D2], `C82_triangle` [C F D1 D2], `C82_minimum` [C F D1 D2], `C82_self_refuted` [C F D1 D2].
* **C83 optimizer steps leave p.grad alone** (proved) - Store model with gradient cells. In `OptimProps.v`: `C83_sgd_grad_contents` [F D1], `C83_kept_without_decay` [F D1], `C83_weight_decay_refuted` [F D1], `C83_decay_accumulates` [F D1].
* **C84 RiemannianAdam on Euclidean parameters is Adam** (proved) - Trajectory equality by induction. In `OptimProps.v`: `C84_adam` [F D1 D2].
* **C85 stereographic products: distance to the origin and to planes** (proved) - Componentwise sums. In `ProductProps.v`: `C85_dist0` [C F D1 D2], `C85_dist0_components` [C F D1 D2], `C85_dist2plane_components` [C F D1 D2].
* **C86 line search gradients are those of the current parameters** (proved) - Model of the line search object between steps; witness executions. In `LineSearchProps.v`: `C86_true_gradients` [F D1], `C86_no_step_refuted` [F D1], `C86_custom_refuted` [F D1], `C86_unevaluated_refuted` [F D1].
* **C87 line search never increases the loss** (proved) - Armijo / Wolfe condition at the accepted step; case analysis of the fall-backs. In `LineSearchProps.v`: `C87_monotone` [F D1], `C87_armijo` [F D1], `C87_first_trial` [F D1].
* **C88 line search stabilisation works** (proved) - Execution of the literal stabilise path. In `LineSearchProps.v`: `C88_refuted` [F D1], `C88_count` [F D1].
* **C89 line search conjugate gradients have their transported direction** (proved) - Case analysis over the conjugate-gradient formulas; execution of the literal code. In `LineSearchProps.v`: `C89_transported` [F D1], `C89_constant_refuted` [F D1], `C89_fletcher_reeves_refuted` [F D1].
* **C90 samples stay on the manifold** (proved) - Invariant over the sampler state machine. In `SamplerProps.v`: `C90_rhmc` [F D1 D2], `C90_rsgld` [F D1 D2], `C90_sgrhmc` [F D1 D2], `C90_stabilize` [D1], `C90_stabilize_states` [D1], `C90_stabilize_projects`, `C90_constructor`.
* **C91 recorded log probabilities are those of the samples** (proved) - Comparison of the recorded density with the density at the final point. In `SamplerProps.v`: `C91_rhmc` [F D1 D2], `C91_rsgld` [F D1 D2], `C91_rsgld_refuted` [F D1 D2], `C91_sgrhmc_refuted` [F D1 D2].
* **C92 Langevin and stochastic-gradient HMC on plain parameters** (proved) - Update equations. In `SamplerProps.v`: `C92_sgld` [F D1 D2], `C92_sghmc` [F D1 D2].
* **C93 dist2plane is the distance to the hyperplane** (proved) - Minimisation by Cauchy-Schwarz after moving p to the origin. In `LayerProps.v`: `C93_lower_bound` [C F D1 D2], `C93_attained` [C F D1 D2], `C93_signed` [C F D1 D2], `C93_on_plane` [C F D1 D2], `C93_scaled` [C F D1 D2], `C93_short_normal_refuted` [C F D1 D2].
* **C94 the dim argument selects the axis, with broadcasting** (proved) - Strided index model (NdModel), induction over the rank. In `LayerProps.v`: `C94_mobius_add` [F D1], `C94_dist2plane` [C F D1 D2].
* **C95 sparse optimizers keep every row on its manifold** (proved) - Invariant over histories of events. In `SparseInvProps.v`: `C95_sgd_no_momentum` [F D1], `C95_sgd_momentum` [F D1], `C95_sgd_absorbing` [F D1], `C95_adam_absorbing` [F D1 D2], `C95_adam` [F D1 D2].
* **C96 stabilisation of the sparse optimizers** (proved) - Same state machine; divisibility of the step counter. In `SparseInvProps.v`: `C96_sgd_period` [F D1], `C96_sgd_rows` [F D1], `C96_sgd_plain_untouched` [F D1], `C96_adam_rows`, `C96_adam_when` [F D1 D2].
* **C97 Moebius coaddition and right cancellation** (proved) - Rational identities; left cancellation. In `StereoMoreProps.v`: `C97_value` [F D1], `C97_commutative` [F D1], `C97_sub_undoes_coadd` [F D1], `C97_cosub_undoes_add` [F D1], `C97_ball` [F D1 D2], `C97_associativity_refuted` [F D1 D2], `C97_documented_formula_refuted` [F D1 D2].
* **C98 antipode** (proved) - Rational bounds on pi and tan of math.pi/2. In `StereoMoreProps.v`: `C98_close` [C F D1 D2], `C98_nonpositive` [F D1 D2], `C98_origin` [F D1 D2], `C98_distance_refuted` [C F D1 D2], `C98_small_curvature_refuted` [F D1 D2], `C98_documented_formula_refuted` [C F D1 D2].
* **C99 curvatures near zero** (proved) - Coquelicot derivatives for the remainder, sign of the remainder. In `StereoMoreProps.v`: `C99_artan` [C F D1 D2], `C99_tan` [C F D1 D2], `C99_sin` [C F D1 D2], `C99_arsin` [C F D1 D2], `C99_zero` [C F D1 D2], `C99_negative_wrong_side` [C F D1 D2], `C99_negative_refuted` [C F D1 D2].
* **C100 distance of the Siegel upper half space** (proved) - Cross ratio as a function of the code's Takagi values through characteristic polynomials (matrix identities over any field), invariance by similarity of cross ratios. In `SiegelProps.v`: `C100_cross_ratio`, `C100_symmetric`, `C100_definite`, `C100_translation`, `C100_congruence`, `C100_inversion`.
* **C101 distance of the bounded domain** (proved) - Cayley transforms conjugate the cross ratios. In `SiegelProps.v`: `C101_isometry`, `C101_isometry_inverse`, `C101_cross_ratio`, `C101_symmetric`, `C101_definite`, `C101_unitary`, `C101_origin`.
* **C102 Siegel distances saturate** (proved) - Monotone log; scalar case computed exactly. In `SiegelProps.v`: `C102_finsler_infinity_bounded`, `C102_riemannian_bounded`, `C102_exact_refuted`. The bound is proved; exactness is refuted beyond t = 2/eps - 1.
* **C103 projection on the upper half space** (proved) - Spectral clamp from any eigendecomposition. In `SiegelProps.v`: `C103_lands`, `C103_fixed_points`, `C103_fixes_refuted`. Landing, idempotence and the exact fixed points proved; that manifold points are fixed is refuted.
* **C104 projection on the bounded domain** (proved) - Clamp of the Takagi values, singular case by the compound matrix. In `SiegelProps.v`: `C104_lands`, `C104_fixed_points`, `C104_fixes_refuted`, `C104_retr`. Landing, idempotence and the exact fixed points proved; that manifold points are fixed is refuted.
* **C105 Siegel checks, random points and origins** (proved) - Eigenvalue characterisation of positive definiteness. In `SiegelProps.v`: `C105_check_upper_half`, `C105_check_bounded_domain`, `C105_check_vector`, `C105_random`, `C105_origin`.
* **C106 inner product of the bounded domain** (proved) - Trace forms; derivative of the Cayley transform with explicit remainder; 2x2 witness. In `SiegelProps.v`: `C106_positive`, `C106_pullback`, `C106_differential`, `C106_metric_refuted`. Positivity proved; equality with the pull-back metric refuted.
* **C107 shapes of Siegel origin and dist** (proved) - Lists of sizes. In `SiegelProps.v`: `C107_origin_shape`, `C107_origin_shape_refuted`, `C107_dist_shape_refuted`. Refuted except for a single matrix and the Riemannian metric.
* **C108 Siegel proju is not a projection** (proved) - Scalar witness. In `SiegelProps.v`: `C108_upper_half_refuted`, `C108_bounded_domain_refuted`. Refuted by example for both manifolds.
* **C109 mobius_matvec is exp0 . m . log0** (proved) - Matrices as functions of the row number; scaling of a vector by tan_k/artan_k; tensordot on NdModel for dim. In `StereoExtraProps.v`: `C109_exp_log` [C F D1 D2], `C109_distance` [C F D1 D2], `C109_isometric` [C F D1 D2], `C109_compose` [C F D1 D2], `C109_scalar` [C F D1 D2], `C109_zero` [C F D1 D2], `C109_in_ball` [C F D1 D2], `C109_rows` [C F D1 D2], `C109_dim_raises_refuted` [C F D1 D2], `C109_dim_value_refuted` [C F D1 D2]. Laws proved where no clamp is active; dim other than -1 refuted.
* **C110 functions applied in the tangent space** (proved) - Chains as folds; induction over the chain with log0 . exp0 = id. In `StereoExtraProps.v`: `C110_identity` [C F D1 D2], `C110_matrix` [C F D1 D2], `C110_chain` [C F D1 D2], `C110_short_chains` [C F D1 D2], `C110_in_ball` [C F D1 D2].
* **C111 mobius_pointwise_mul is a diagonal mobius_matvec** (proved) - Reduction to C109 with a diagonal matrix. In `StereoExtraProps.v`: `C111_diagonal` [C F D1 D2], `C111_in_ball` [C F D1 D2], `C111_tiny_is_zero` [C F D1 D2], `C111_small_refuted` [C F D1 D2]. Proved above the 1e-8 threshold, refuted below.
* **C112 weighted midpoints** (proved) - List of weighted rows; midpoint as the projection of the weighted sum of hyperboloid lifts, reversed Cauchy-Schwarz for the minimiser. In `StereoExtraProps.v`: `C112_order` [C F D1 D2], `C112_in_ball` [C F D1 D2], `C112_rotation` [C F D1 D2], `C112_weight_scale` [C F D1 D2], `C112_euclidean` [C F D1 D2], `C112_posweight` [C F D1 D2], `C112_posweight_positive` [C F D1 D2], `C112_library_constants` [C F D1 D2], `C112_minimises` [C F D1 D2], `C112_translation` [C F D1 D2], `C112_copies` [C F D1 D2], `C112_equidistant` [C F D1 D2], `C112_single_refuted` [C F D1 D2], `C112_posweight_sphere_refuted` [C F D1 D2]. Order, rotation, scale, ball, Euclidean and posweight laws proved for the library constants; minimiser, translation, copies and equidistance proved for the constants set to 0, and C112_library_constants bounds the factor between the two. Single point and posweight on the sphere refuted.
* **C113 curvature parametrisation** (proved) - softplus and its inverse over the reals with torch's threshold. In `StereoClassProps.v`: `C113_sign` [C F D1 D2], `C113_roundtrip` [C F D1 D2], `C113_close` [C F D1 D2], `C113_large_refuted` [C F D1 D2]. Exact up to 20, gap bounded beyond, equality refuted from 21.
* **C114 stereographic manifold methods return accepted points** (proved) - Methods as calls of math.py followed by project; idempotence of project. In `StereoClassProps.v`: `C114_results_accepted` [C F D1 D2], `C114_methods_agree` [C F D1 D2], `C114_matvec_accepted` [C F D1 D2], `C114_check_exact` [F D1 D2], `C114_check_bound` [F D1 D2], `C114_outside_refuted` [F D1 D2], `C114_geodesic_refuted` [C F D1 D2], `C114_retr` [F D1 D2], `C114_exact_retr` [C F D1 D2], `C114_expmap_transp` [F D1 D2], `C114_retr_transp` [F D1 D2], `C114_fused` [F D1 D2], `C114_radius_ball` [F D1 D2], `C114_radius_sphere` [C F D1 D2], `C114_maxnorm_radius` [F D1 D2], `C114_random_normal` [C F D1 D2], `C114_wrapped_normal` [C F D1 D2]. Closure and check proved for all arguments; geodesic and default tolerances refuted.
* **C115 line search directions are conjugate gradient directions** (proved) - Two consecutive calls of step on LineSearchModel; what the second sees is expressed in the parameters left by the first; SPD witness computed exactly. In `LineSearchCgProps.v`: `C115_first` [F D1], `C115_constant` [F D1], `C115_fletcher_reeves` [F D1], `C115_polak_ribiere` [F D1], `C115_documented` [F D1], `C115_documented_refuted` [F D1]. Proved for the denominator the code uses and, for point-independent metrics, for the documented one; in general the documented one is refuted on 1x1 SPD matrices.
* **C116 Euclidean manifold on tensors of any shape** (proved) - Tensors with shapes (NdModel); induction over ndim for the reduced axes; Cauchy-Schwarz for a positive linear form. In `EuclideanProps.v`: `C116_inner` [F D1], `C116_inner_default` [F D1], `C116_component_inner` [F D1], `C116_norm` [F D1 D2], `C116_norm_value` [F D1 D2], `C116_norm_shape_refuted` [F D1 D2], `C116_dist` [F D1 D2], `C116_dist2` [F D1 D2], `C116_dist2_value` [F D1], `C116_symmetric` [F D1 D2], `C116_triangle` [F D1 D2], `C116_zero` [F D1 D2], `C116_broadcast_triangle_refuted` [F D1 D2], `C116_broadcast_inner_refuted` [F D1], `C116_exp_log` [F D1], `C116_log_exp` [F D1], `C116_exp_dist` [F D1 D2], `C116_retr` [F D1], `C116_proju` [F], `C116_transp` [F], `C116_empty_batch_refuted` [F D1 D2]. Proved for equal manifold axes without empty axes; broadcasting manifold axes, empty batches and the shape of norm are refuted.
* **C117 Euclidean random_normal and origin have the requested shape** (proved) - Shapes by the inherited shape check. In `EuclideanProps.v`: `C117_random` [F D1], `C117_origin` [D1], `C117_too_few_axes` [D1], `C117_shape_refuted` [D1]. Proved for numbers; the shape is refuted for tensor parameters.
* **C118 stereographic functions act on rows along dim** (proved) - NdModel tensors; every intermediate tensor is described by its rank, its axis sizes (each 1 or that of the joint shape) and its rows, so that each line of the code is one lemma application. In `StereoNdProps.v`: `C118_mobius_add` [F D1], `C118_mobius_sub` [F D1], `C118_mobius_coadd` [F D1], `C118_mobius_cosub` [F D1], `C118_gyration` [F D1], `C118_scalar_mul` [C F D1 D2], `C118_pointwise_mul` [C F D1 D2], `C118_geodesic` [C F D1 D2], `C118_geodesic_unit` [F D1 D2], `C118_expmap` [F D1 D2], `C118_expmap0` [F D1 D2], `C118_logmap` [C F D1 D2], `C118_logmap0` [C F D1 D2], `C118_parallel_transport` [F D1], `C118_parallel_transport0` [F D1], `C118_parallel_transport0back` [F D1], `C118_egrad2rgrad` [F D1], `C118_project` [F D1 D2], `C118_antipode` [F D1 D2], `C118_lambda_x` [F D1 D2], `C118_norm` [F D1 D2], `C118_dist` [C F D1 D2], `C118_dist0` [C F D1 D2], `C118_inner_keepdim` [F D1 D2], `C118_inner_refuted` [F D1 D2], `C118_sproj` [F D1 D2], `C118_inv_sproj` [F D1 D2]. inner with keepdim=False is refuted; the rest is proved for a 0-dimensional curvature.
* **C119 weighted_midpoint on tensors** (proved) - Same description by rows; sums over several axes by induction on the list of axes; the global posweight test agrees with the one of each group up to flips that change nothing; the sum of a one-element weight is a product of sizes. In `StereoMidNdProps.v`: `C119_keepdim` [C F D1 D2], `C119_drop` [C F D1 D2], `C119_all` [C F D1 D2], `C119_all_keepdim` [C F D1 D2], `C119_method_keepdim` [C F D1 D2], `C119_method` [C F D1 D2], `C119_method_plain` [C F D1 D2], `C119_one_point_refuted` [C F D1 D2], `C119_negative_refuted` [C F D1 D2], `C119_weightings_refuted` [C F D1 D2], `C119_method_dim_refuted` [C F D1 D2]. Four documented uses are refuted; the rest is proved for a 0-dimensional curvature.
* **C120 Lorentz functions act on rows along dim** (proved) - Description by rows as for C118, with reads restricted to coordinates inside the row because cat changes sizes; time and space parts as narrow, joined by cat; refutations on two points stored along the first axis. In `LorentzNdProps.v`: `C120_inner` [F D1 D2], `C120_inner0` [F D1 D2], `C120_dist` [C F D1 D2], `C120_dist0` [C F D1 D2], `C120_project` [F D1 D2], `C120_project_polar` [F D1 D2], `C120_project_u` [F D1], `C120_geodesic_unit` [F D1 D2], `C120_method_inner` [F D1 D2], `C120_method_inner_self` [F D1 D2], `C120_poincare_to_lorentz` [F D1 D2], `C120_lorentz_to_poincare` [F D1 D2], `C120_lorentz_to_poincare_vector_refuted` [F D1 D2], `C120_lorentz_to_poincare_batch_refuted` [F D1 D2], `C120_check_point` [F D1 D2], `C120_check_vector` [F D1 D2], `C120_norm` [F D1 D2], `C120_expmap` [F D1 D2], `C120_expmap0` [F D1 D2], `C120_logmap` [C F D1 D2], `C120_logmap0` [C F D1 D2], `C120_logmap0back` [C F D1 D2], `C120_transport` [C F D1 D2], `C120_transport0` [C F D1 D2], `C120_transport0back` [C F D1 D2], `C120_egrad2rgrad` [F D1], `C120_method_expmap` [F D1 D2], `C120_method_expmap0` [F D1 D2], `C120_method_transp_follow` [C F D1 D2], `C120_norm_dim_refuted` [F D1 D2], `C120_expmap_dim_refuted` [C F D1 D2], `C120_logmap_dim_refuted` [C F D1 D2], `C120_expmap0_shape_refuted`, `C120_logmap0_shape_refuted`, `C120_expmap0_dim_refuted` [F D1 D2], `C120_logmap0_dim_refuted` [C F D1 D2], `C120_egrad2rgrad_dim_refuted` [F D1 D2]. Functions that do not pass dim on are proved for the last axis and refuted for another; the curvature is a 0-dimensional tensor.
* **C121 Sphere methods act on rows of tensors** (proved) - torch.matmul with its vector and batch cases, transpose, expand, where; rows by the records of C120 with the shape of the projector batch joined to that of the operands; the refutation computes the shape of the product for all sizes. In `SphereNdProps.v`: `C121_subspace` [F D1], `C121_projx` [F D1 D2], `C121_proju` [F D1], `C121_retr` [F D1 D2], `C121_expmap` [F D1 D2], `C121_logmap` [C F D1 D2], `C121_transp` [F D1], `C121_inner` [F D1 D2], `C121_inner_self` [F D1 D2], `C121_dist` [C F D1 D2], `C121_check_point` [F D1 D2], `C121_check_vector` [F D1 D2], `C121_batch_product` [F D1], `C121_batch_projx_refuted` [F D1 D2]. One projector for each point of a batch is refuted: the product pairs every projector with every point.
* **C122 Stiefel methods act on each matrix of a batch** (proved) - Tensors of matrices (MatNdModel: batch shape and entries); a record gm relates a tensor of any batch to a function from positions to mathcomp matrices and is carried through every operation, with a join operation for broadcast shapes (MatNdShape). In `StiefelNdProps.v`: `C122_sym` [F], `C122_trace` [F], `C122_extract_diag` [F], `C122_block_matrix` [F], `C122_check_point` [F], `C122_check_vector` [F], `C122_projx` [F], `C122_random` [F], `C122_origin`, `C122_wrong_shape`, `C122_canonical_proju` [F], `C122_canonical_retr` [F], `C122_transp_follow` [F], `C122_canonical_inner` [F], `C122_canonical_inner_self` [F], `C122_retr_transp` [F], `C122_retr_transp_vector_batch_refuted`, `C122_retr_transp_broadcast_refuted` [F], `C122_euclidean_proju` [F], `C122_euclidean_transp` [F], `C122_euclidean_inner` [F], `C122_euclidean_inner_self` [F], `C122_euclidean_retr` [F], `C122_euclidean_expmap` [F], `C122_expmap_broadcast_refuted` [F], `C122_raises`, `C122_retr_on_manifold` [F]. retr_transp and expmap with arguments of different batches are refuted; svd, qr, solve and matrix_exp are oracles that act on each matrix.
* **C123 SPD methods act on each matrix of a batch** (proved) - The records of C122 plus one for tensors of vectors (eigenvalues); diag_embed, eigh on each matrix, determinants, positions of a batch for the checks. In `SpdNdProps.v`: `C123_sym_funcm` [F], `C123_sym_expm` [F], `C123_sym_logm` [F], `C123_sym_sqrtm` [F], `C123_sym_inv_sqrtm1` [F], `C123_sym_inv_sqrtm2` [F], `C123_sym_invm` [F], `C123_singular` [F], `C123_dist` [F], `C123_check_point` [F], `C123_check_point_empty_refuted` [F], `C123_check_vector` [F], `C123_projx` [F], `C123_proju` [F], `C123_egrad2rgrad` [F], `C123_inner` [F], `C123_inner_self` [F], `C123_retr` [F], `C123_expmap` [F], `C123_logmap` [F], `C123_transp` [F], `C123_random` [F], `C123_origin`, `C123_origin_size_refuted`, `C123_origin_tuple_refuted`, `C123_raises` [F]. check_point on an empty batch and origin with a tuple or a size that is not square are refuted; eigh and matrix_exp are oracles that act on each matrix.
* **C124 Birkhoff methods on batches** (proved) - The records of C122; flattening by the row-major position of an index and back (ravel and unravel are inverse inside a shape); Sinkhorn by induction on max_iter with the pass count as witness, and as a refinement of the sequence model of C33. In `BirkhoffNdProps.v`: `C124_check_point` [F], `C124_check_vector` [F], `C124_projx` [F], `C124_projx_sequence` [F], `C124_empty_refuted` [F], `C124_retr` [F], `C124_random` [F], `C124_proju` [F], `C124_proju_raises` [F], `C124_tangent` [F], `C124_retr_transp`, `C124_inner` [F], `C124_inner_self` [F], `C124_origin`, `C124_wrong_shape`, `C124_raises`, `C124_sizes`. projx on an empty batch is refuted (torch.max of no entries raises); entries 0 of x in retr and inner follow the field convention, not inf or nan.
* **C125 Siegel methods act on each matrix of a batch** (proved) - The records of C122 over F and over F[i] with maps between them; partial functions as a call that returns iff every position does, with positions lifted from one argument's batch to the broadcast one; boolean masks of shape (b, 1, 1) expanded to the matrices; the five metrics as reductions of the last axis with weights of shape (1, rank). In `SiegelNdProps.v`: `C125_takagi_eig` [F], `C125_takagi_eigvals` [F], `C125_cayley` [F], `C125_positive_conjugate_projection` [F], `C125_upper_half_projx` [F], `C125_bounded_projx` [F], `C125_upper_half_egrad2rgrad` [F], `C125_bounded_egrad2rgrad` [F], `C125_upper_half_retr` [F], `C125_bounded_retr` [F], `C125_inner` [F], `C125_upper_half_dist` [F], `C125_bounded_dist` [F], `C125_dist_shape`, `C125_upper_half_check` [F], `C125_bounded_check` [F], `C125_check_vector` [F], `C125_random` [F], `C125_origin`, `C125_bd_zeros`, `C125_raises` [F]. inner and dist are stated for batches with at least one position; the shapes of dist that keepdim does not control are the finding of C107.
* **C126 Guards exclude NaN and infinity in floating point** (proved) - IEEE numbers of Flocq (BinarySingleNaN, no NaN payloads), every operation rounded to nearest even; elementary functions are oracles with a contract; bounds by monotony of rounding and relative errors. In `FloatProps.v`: `C126_artanh` [C F D1 D2], `C126_artanh_odd` [C F D1 D2], `C126_tan_k` [C F D1 D2], `C126_dist` [C F D1 D2], `C126_guarded_div` [C F D1 D2], `C126_sphere_dist` [C F D1 D2], `C126_artanh_accuracy` [C F D1 D2], `C126_tan_k_accuracy` [C F D1 D2], `C126_dist_accuracy` [C F D1 D2], `C126_guarded_div_exact` [C F D1 D2], `C126_sphere_dist_accuracy` [C F D1 D2], `C126_nan` [C F D1 D2]. Elementary functions are oracles with ten correct bits (NaN to NaN where stated); the norm or inner product is an argument.
* **C127 project stays inside the ball in floating point** (proved) - The same; relative errors of root, reciprocal, quotient and product, with the sum of squares compared entry by entry; subnormal entries cost an absolute error that the margin absorbs. In `FloatProps.v`: `C127_project` [C F D1 D2], `C127_inside` [C F D1 D2], `C127_outside` [C F D1 D2]. The computed norm is an argument with the accuracy of a pairwise sum; the three regimes are proved for every rounding.
* **C128 arsinh in floating point** (proved) - The same; for large x the rounded root is |x| exactly. In `FloatProps.v`: `C128_positive` [C F D1 D2], `C128_negative` [C F D1 D2], `C128_arsin_k` [C F D1 D2], `C128_odd_refuted` [C F D1 D2], `C128_overflow` [C F D1 D2]. Oddness is refuted.
* **C129 Lorentz distances in floating point** (proved) - The same; the rounded square root of the rounded square is exact, hence the inner product is 0. In `FloatProps.v`: `C129_nonneg` [C F D1 D2], `C129_accuracy` [C F D1 D2], `C129_overflow` [C F D1 D2], `C129_self_dist` [C F D1 D2], `C129_dist_nonneg_refuted` [C F D1 D2]. Nonnegativity of the distance is refuted; points have two coordinates and k = 1 there.
* **C130 The Riemannian gradient of the squared distance is minus twice the logarithm** (proved) - Directional derivatives (Coquelicot) of the modelled distances along every line; clamps are locally inactive (or active) by continuity, the rest is the chain rule; the gradient is unique, so the theorem holds for whatever gradient is supplied. In `GradProps.v`: `C130_sphere` [C F D1 D2], `C130_sphere_step` [C F D1 D2], `C130_sphere_exists` [C F D1 D2], `C130_sphere_clamped` [C F D1 D2], `C130_lorentz` [C F D1 D2], `C130_lorentz_step` [C F D1 D2], `C130_lorentz_near` [C F D1 D2], `C130_lorentz_target` [C F D1 D2], `C130_stereo` [C F D1 D2], `C130_stereo_step` [C F D1 D2], `C130_stereo_ball` [C F D1 D2], `C130_stereo_sphere` [C F D1 D2], `C130_stereo_exists` [C F D1 D2], `C130_stereo_saturated` [C F D1 D2]. Automatic differentiation is not modelled: the gradient is any vector whose pairing with every direction is the derivative of the loss along it.
* **C131 Small gradient steps decrease the loss** (proved) - The curve t -> retr(x, -t r) has derivative -r at 0, proved from the code of the modelled function with its guards; Frechet differentiability of the loss and <g, r> > 0 give the decrease. The Lorentz witness is a linear loss at a point of the hyperbola. In `DescentProps.v`: `C131_sphere_retr` [C F D1 D2], `C131_sphere_expmap` [C F D1 D2], `C131_stereo_retr` [C F D1 D2], `C131_stereo_expmap` [C F D1 D2], `C131_lorentz_refuted` [C F D1 D2]. Lorentz is refuted; the loss is any function with a Frechet derivative at the point.
* **C132 Small gradient steps decrease the loss on the matrix manifolds** (proved) - Each step is written as x + t a + t^2 b(t) with b bounded and <g, a> < 0: Cayley transforms preserve lengths; the triangular QR factor of 1 + t^2 r^T r is within t^2 |r^T r| of 1 (its inverse is triangular too); the SPD curves are expanded along a diagonalisation. One lemma on ordered fields then gives the decrease. In `MatDescentProps.v`, `MatGeoProps.v`: `C132_canonical_stiefel`, `C132_euclidean_stiefel`, `C132_spd_retr`, `C132_spd_expmap`, `C132_exact_stiefel` [C E F D1 D2]. EuclideanStiefelExact over the reals with matrix_exp the sum of its power series; the others over any ordered field.
* **C133 Small gradient steps on the Siegel spaces** (proved) - Positive definiteness is open along lines (real case by a bound on the quadratic form; Hermitian case through real matrices of twice the size), so the clamp of projx is inactive for small steps and the retraction is the straight line; the slope is -<g, r>, the metric square of r on the upper half space and |s g s*|^2 with 1 - conj(z) z = s* s on the bounded domain. The refutation computes one 2 x 2 gradient with <g, r> = -1/4. In `SiegelDescentProps.v`: `C133_upper_half`, `C133_bounded_domain`, `C133_bounded_domain_refuted`. BoundedDomain with gradients that are not symmetric is refuted by a 2 x 2 witness that works in both dtypes.
* **C134 Weight decay on manifolds** (proved) - A simulation: two runs that differ in weight decay are related parameter by parameter up to the content of p.grad; the relation is kept by updates, loops that may raise, and stabilisation, given that egrad2rgrad does not see multiples of a point on the manifold. That points stay on the manifold is the invariant of C54 and C57, training loops being histories. The other manifolds are computed directly. In `MatDecayProps.v`, `OptimDecayProps.v`: `C134_canonical_stiefel`, `C134_euclidean_stiefel`, `C134_spd`, `C134_sgd_training` [F D1], `C134_adam_training` [F D1 D2], `C134_momentum_training` [F D1], `C134_sphere` [F D1 D2], `C134_euclidean_not_blind` [F D1], `C134_ball` [F D1 D2], `C134_lorentz` [C F D1 D2]. Training theorems are over flat vectors; for the Stiefel manifolds the invariance of the Riemannian gradient is proved on matrices and not lifted to the optimizer loop.
* **C135 An optimizer step with a small learning rate decreases the loss** (proved) - The parameters move along curves in the learning rate; Frechet differentiability of the joint loss and the velocities of the curves give the derivative of the loss along the step, minus a sum of products <g, d> with d the Riemannian gradient or a positive rescaling of it (the first direction of Adam, where the bias corrections cancel). For the matrix manifolds the step is o_retr at a rescaled learning rate, so C132 applies. In `MatStepProps.v`, `OptimDescentProps.v`: `C135_canonical_stiefel`, `C135_euclidean_stiefel`, `C135_exact_stiefel` [C E F D1 D2], `C135_spd`, `C135_sgd` [F D1 D2], `C135_adam_first_step` [F D1 D2], `C135_euclidean` [C F D1 D2], `C135_sphere` [C F D1 D2], `C135_ball` [C F D1 D2]. One parameter group with one learning rate, without stabilisation; Lorentz is excluded since it fails there (C131). The matrix manifolds are covered for one parameter; the exact Stiefel case uses the power series of matrix_exp, the Euclidean one any QR factorisation.
* **C136 Training on a product manifold is training on its components** (proved) - A simulation between one parameter holding the packed row and the list of separate parameters: each operation of the product, which takes a component's slice and concatenates the results, agrees on every slice with the operation of the component; the relation is kept by updates, momentum, moments and stabilisation, and by induction by whole runs. That the manifolds look only at their own entries is proved per manifold, products included. In `ProductOptimProps.v`: `C136_sgd` [F D1], `C136_adam` [F D1 D2], `C136_components` [C F D1 D2], `C136_nested` [D1]. Parameters are rows without batch axes, every component has a gradient; Adam with constant amsgrad and stabilize other than 0.
* **C137 Training on a scaled manifold is training with a rescaled learning rate** (proved) - Scaled as the optimizers see it (retr and retr_transp divide the direction, everything else passes through, component_inner is the one of the base class). An update on the scaled manifold is literally the update on the base with the learning rate divided; loops and stabilisation commute with the change of manifold. The Euclidean case is refuted by computing the first Adam step for the gradient (3, 4). In `ScaledOptimProps.v`: `C137_sgd` [F D1], `C137_adam` [F D1 D2], `C137_adam_euclidean_refuted` [F D1 D2]. Adam for bases with the generic component_inner; for Euclidean the claim is refuted with a witness, as the statement says.
* **C138 Rotating the coordinates does not matter** (proved) - A rotation is any linear map preserving dot products. Each function is a combination of vectors with coefficients that depend on dot products only, so it commutes; manifolds as records inherit this, and a simulation with one rotation per parameter carries it through updates, loops and stabilisation. For Adam the second moments stay single numbers (invariant). The Euclidean case is refuted with gradient (5, 0) and a 3-4-5 rotation. In `RotationProps.v`: `C138_stereographic` [C F D1 D2], `C138_sphere` [C F D1 D2], `C138_lorentz` [C F D1 D2], `C138_manifolds` [C F D1 D2], `C138_sgd` [F D1], `C138_adam` [F D1 D2], `C138_adam_euclidean_refuted` [F D1 D2]. Adam for manifolds whose component_inner is one number; for Euclidean the claim is refuted with a witness, as the statement says.
* **C139 Isometries of the hyperboloid** (proved) - An isometry is a linear map preserving the Minkowski form and the upper sheet. Functions commute because their coefficients depend on the form only; the final projx of expmap does nothing on the hyperboloid, where the exponential stays for steps of at least 1e-4. Euclidean gradients are carried by J T J. Induction over training steps. The refutation uses that expmap(x, 0) = x only at the origin (C46). In `BoostProps.v`: `C139_isometries` [F D1 D2], `C139_functions` [C F D1 D2], `C139_gradient` [F D1], `C139_training` [C F D1 D2], `C139_short_step_refuted` [C F D1 D2]. Training: one parameter, SGD without momentum (the momentum buffer starts as the Euclidean gradient, which is not carried as a vector).
* **C140 How parameters are divided into groups does not matter** (proved) - Without exceptions a step of a group is a map over its parameters of a function that depends on the step counter only (SGD: the group's counter; Adam: the counters of the parameters, which an invariant keeps equal to the number of steps). Maps commute with concatenation; induction over steps. The refutation has a parameter that has left its sphere. In `GroupingProps.v`: `C140_sgd` [F D1], `C140_adam` [F D1 D2], `C140_adam_missing_gradient_refuted` [F D1 D2]. Adam with a constant amsgrad setting, starting without state.
* **C141 Training on the matrix manifolds commutes with their symmetries** (proved) - A generic lemma carries a symmetry through the SGD and Adam loops from its commutation with egrad2rgrad, inner, retr and retr_transp. Stiefel: amat and the Cayley system are conjugated by Q; the matrix exponential intertwines with block_mx R 0 0 R; the sign-fixed QR factor is unique, so the factor of Q m is Q times that of m. Factorisations exist by Gram-Schmidt. SPD: i' a s intertwines the whitened matrices of x and a x a^T, functions of symmetric matrices respect intertwiners. Moved gradients are Frechet gradients of the moved losses. In `MatLoopProps.v`, `MatSymProps.v`: `C141_flat` [E F D1], `C141_sgd_loop` [E F D1], `C141_adam_loop` [E F D1 D2], `C141_turned_gradient`, `C141_congr_gradient`, `C141_canonical_operations`, `C141_canonical_sgd`, `C141_canonical_adam`, `C141_exact_sgd`, `C141_exact_adam`, `C141_euclidean_sgd`, `C141_euclidean_adam`, `C141_qr_exists`, `C141_columns_refuted`, `C141_spd_operations`, `C141_spd_sgd`, `C141_spd_adam`, `C141_spd_momentum_refuted`, `C141_spd_decay_refuted`. One parameter, stabilize=None. The failing cases (columns with the QR retraction, momentum and weight decay on SPD) are refuted with witnesses, as the statement says.
* **C142 The exponential maps of the matrix manifolds follow geodesics** (proved) - The matrix exponential is defined entrywise as the sum of its power series (absolute convergence by comparison with exp of the sum of absolute entries). Its group law comes from the Cauchy product and the binomial theorem, its derivative from termwise differentiation. The Stiefel curve is X exp(t W) J exp(-t A) with X = [x u]; differentiating replaces J by W J - J A, and W^T N = - N W for the Gram matrix N of X, which gives conservation of the Gram matrices along the curve. Rescaling time and restarting are intertwining relations of W. The SPD curve is a exp(t m) a^T; restarting uses the equivariance of C141. In `MatGeoProps.v`: `C142_exponential` [E F D1 D2], `C142_exponential_ode` [C E F D1 D2], `C142_stiefel_geodesic` [C E F D1 D2], `C142_spd_geodesic` [C E F D1 D2], `C142_spd_retr` [E F D1 D2]. Over the reals, with matrix_exp the sum of its power series (also shown to meet the contracts under which matrix_exp appears in C28, C31, C78 and C141).
* **C143 Training keeps matrix parameters on their manifold** (proved) - An invariant (point on the manifold, average tangent) carried through the loops of MatSymModel.v from the properties of egrad2rgrad, retr and retr_transp; where the retraction maps every vector to the manifold, no tangency is needed. Counterexamples: x = 1 with gradient -1 (1 x 1, real matrix exponential, first order expansion of the curve), and the identity with gradient the quarter turn J, where retr(1, -2J) = -1. In `MatInvProps.v`: `C143_adam_canonical`, `C143_adam_euclidean`, `C143_adam_exact`, `C143_adam_spd`, `C143_spd_isometry`, `C143_sgd_canonical`, `C143_sgd_euclidean`, `C143_sgd_exact`, `C143_sgd_spd`, `C143_exact_momentum_refuted` [C E F D1 D2], `C143_spd_momentum_refuted`. One parameter, stabilize=None, exact arithmetic. The failing cases are refuted with witnesses, as the statement says.
* **C144 Training continued from a checkpoint is the same training** (proved) - CheckpointModel.v gives the contract of torch for the dictionaries geoopt fills. Loading a saved optimizer gives it back except for p.grad (induction over the numbering of parameters through the groups), gradients are overwritten before a step, and training never changes the manifolds. Line search: the run on f(x) = x from 0 is computed. In `CheckpointLsProps.v`, `CheckpointProps.v`: `C144_line_search_refuted` [F D1], `C144_sgd` [F D1], `C144_adam` [F D1 D2], `C144_sparse_sgd` [F D1], `C144_sparse_adam` [F D1 D2], `C144_other_sizes`, `C144_other_sizes_sparse`, `C144_sgd_runs` [F D1], `C144_adam_runs` [F D1 D2]. state_dict and load_state_dict are those of torch.optim.Optimizer and are modelled by their contract (groups by position, states by number); no casts of dtype or device. The line search part is refuted with a witness, as the statement says.
* **C145 Critical points are fixed points of training** (proved) - Invariant: every parameter keeps its manifold and value, Adam states have exp_avg = 0 (and a max_exp_avg_sq when amsgrad is set). Each manifold supplies retr x 0 = x, retr_transp x 0 0 = (x, 0), projx x = x, proju x 0 = 0. Lorentz: the clamped norm of 0 is 1e-4, so expmap x 0 = cosh(1e-4 / sqrt k) x, project keeps the space coordinates; induction over the steps and growth of powers. In `FixedMatProps.v`, `FixedProps.v`: `C145_canonical_stiefel`, `C145_euclidean_stiefel`, `C145_exact_stiefel` [C E F D1 D2], `C145_spd`, `C145_sgd` [F D1], `C145_adam` [F D1 D2], `C145_sphere` [F D1 D2], `C145_euclidean` [F D1], `C145_ball` [F D1 D2], `C145_momentum_refuted` [F D1 D2], `C145_lorentz_refuted` [C F D1 D2]. Matrix manifolds: one parameter without stabilisation (MatSymModel.v); EuclideanStiefelExact with the real matrix exponential. Exact real arithmetic. The momentum and Lorentz parts are refuted with witnesses, as the statement says.
* **C146 Gradient descent on the sphere finds the minimiser of a linear loss** (proved) - Training one parameter without momentum iterates one function (induction over the steps of the model of the optimizer). With p = <a, x> the step changes (|a| + p)/(|a| - p), the squared tangent of half the angle to the minimiser, by at most the factor ((1 + lr |a|)/(1 + 2 lr |a|))^2: a calculation with the norm of x - lr grad. Oscillation: tan(2 theta) = lr sin(theta) has the rational solution cos(theta) = 4/5, lr = 40/7. In `SphereConvProps.v`: `C146_rate` [F D1 D2], `C146_limit` [F D1 D2], `C146_contraction` [F D1 D2], `C146_minimiser` [F D1 D2], `C146_large_rate_refuted` [F D1 D2]. Exact real arithmetic, one parameter; the gradient of the loss (the vector a) is what autograd delivers. The part on large learning rates is a counterexample, as the statement says.
* **C147 Gradient descent on the sphere computes a principal component** (proved) - The step multiplies the coordinate along the i-th eigenvector by 1 + 2 lr (rho - b_i) and normalises, rho being the current loss, which lies between the extreme eigenvalues; so the squared tangent of the angle to v shrinks by a fixed factor and the sign of the coordinate along v is kept. Induction over the steps. In `RayleighProps.v`: `C147_rate` [F D1 D2], `C147_limit` [F D1 D2], `C147_shrink` [F D1], `C147_minimiser` [F D1], `C147_orthogonal` [F D1 D2]. Exact real arithmetic, one parameter; the gradient 2 m x is what autograd delivers for the loss. The matrix comes with an orthonormal basis of eigenvectors (the spectral theorem is not proved here).
* **C148 Gradient descent on flat parameters descends, reaches stationary points and minimises convex losses** (proved) - The run of the optimizer model is the iteration x -> x - lr g x (the Euclidean retraction is addition, the Riemannian gradient the gradient). The mean value theorem along the segment gives the quadratic upper bound, hence the decrease per step; sums and the monotone convergence of the losses give the rest; the convex rate by telescoping the squared distances to z. In `FlatConvProps.v`: `C148_descent` [C F D1 D2], `C148_stationary` [C F D1 D2], `C148_convex_rate` [C F D1 D2], `C148_nearer_to_minimisers` [C F D1 D2], `C148_strongly_convex_rate` [C F D1 D2], `C148_stationary_up_to_two` [C F D1 D2], `C148_large_step_refuted` [F D1], `C148_square_loss` [F D1 D2]. Exact real arithmetic, one parameter; the gradient is what autograd delivers for the loss (is_gradient: the derivative along every line). C148_large_step_refuted shows that a bound on the learning rate is needed; the rates for convex losses are stated for lr L <= 1, descent and vanishing gradients for lr L < 2.

## Findings

Each line is a behaviour of the code proved by the theorems named (or by the theorems of the property named); they are defects with respect to the documentation or to the property.

* utils: broadcast_shapes on zero-length axes (C01); drop_dims needs sorted dims (C03).
* base: `check_point`-style helpers accept points off the manifold within tolerance only; SPD, Birkhoff and Lorentz checks accept points that are not on the manifold at all (C32, C46).
* Euclidean: empty batches raise in proju, egrad2rgrad, transp, inner (utils.broadcast_shapes returns 1 for size 0), norm has not the shape of inner, a vector of size 1 along a manifold axis is measured before it is broadcast, random_normal with tensor parameters returns another shape than asked (C116, C117).
* Scaled: overrides on `Manifold` shadow the base's own methods (origin, component_inner, pack_point, unpack_tensor, extra_repr); Scaled(StereographicProductManifold) raises AttributeError; Scaled(Lorentz).norm raises TypeError and .random KeyError; gradients miss a factor (C71); pickling is broken (C72, C73).
* Product: packing an empty batch raises (C17); the distance has a floor (C19); wrapped_normal uses a scalar std and dist2plane loses its sign (C20); geodesic_unit has speed sqrt(m) (C74); Moebius operations raise for components of rank two or more (C75).
* Sphere: C69, C70; a batch of subspaces is not matched with a batch of points (C121).
* Stiefel: the canonical proju doubles tangent vectors (C27); the canonical retraction is not first order for it (C76).
* SPD: the check accepts 0 and negative multiples of the identity, projx(0) = 0, the Stein "distance" violates the triangle inequality (C32, C78).
* Birkhoff: proju and transp shrink tangent vectors, `origin()` is a singular point for proju, the check accepts negative entries, tiny inputs are not normalised, results depend on the rest of the batch, gradients have a factor 1/n (C33, C34, C79, C80).
* Stereographic: C36, C37, C42, C45; dist2plane always adds 1e-15 (C93); documentation of mobius_coadd (C97) and of antipode is wrong, antipode fails for 0 < k <= 1e-8 and the distance to it is wrong (C98); Taylor branches have the wrong sign for negative curvature (C99); mobius_matvec with dim other than -1 raises or transposes (C109); mobius_pointwise_mul returns 0 when all products are below 1e-8 (C111); weighted_midpoint of one point is not that point, posweight on the sphere keeps the conformal factor of the original point (C112), and the method of the manifold projects along `dim` after the reduced axes were dropped, so that a non-negative dim raises; a single point is summed over its entries, several negative positions in reducedim raise or leave an axis over, weights with more axes than the points reduce the wrong axis (C119); curvature above 21 is not the requested one (C113); check_point accepts points outside the ball, geodesic is never projected (C114).
* Lorentz: expmap(x, 0) is not x off the origin, dist(x, x) > 0, egrad2rgrad mutates its argument (C48), project_polar works for k = 1 only, poincare_to_lorentz leaves the hyperboloid, lorentz_to_poincare works for rank 2 only (C49), the check accepts the lower sheet (C46), random_normal ignores std (C81), norm, expmap, logmap, transports and egrad2rgrad ignore a dim other than the last axis, expmap0 and logmap0 then return 2n-1 coordinates (C120).
* Siegel: origin and dist shapes (C107), minimum entropy weights (C53), BoundedDomain.inner is not the Siegel metric (C106), BoundedDomain.egrad2rgrad not the gradient (C51), proju is not a projection (C108), distances saturate (C102), projx moves manifold points near the boundary (C103, C104), the Takagi factor of a singular matrix need not be unitary (C52).
* RSGD: the momentum buffer starts as the raw Euclidean gradient (C56), is stale when momentum is toggled, p.grad is modified by weight decay and Nesterov (C83), stabilize=0 raises ZeroDivisionError, parameters without gradient are still projected (C60).
* RSGD with momentum leaves EuclideanStiefelExact and SymmetricPositiveDefinite in the first step (C143).
* RAdam: amsgrad switched on later raises KeyError (C57).
* Sparse optimizers: AMSGrad stores the square root of the corrected maximum (C59); rows that appear late start with a zero buffer and share the step count (C58); the documented `stabilize` argument of SparseRiemannianAdam is missing.
* Line search: stale derphi (C62), loss of an untried step (C63), no-step and give-up paths corrupt later steps (C86), stabilisation raises RuntimeError (C88), conjugate-gradient options raise KeyError with Armijo (C89), parameters added later are never updated, parameters without gradient raise; the Fletcher-Reeves and Polak-Ribiere denominators measure the old gradient at the new point (C115).
* Samplers: the RHMC proposal is not time reversible (C66), math.exp overflows after parameters moved (C65), a gradient that first appears during a step raises KeyError after other parameters moved (C65), RSGLD and SGRHMC record the density of the previous point (C91), burn-in densities are recorded, n_steps=0 still moves, epsilon of the last group leaks into the final half step, SGRHMC velocities are not tangent (C90-C92).
* Tree dataset: dimension 1 branching raises ZeroDivisionError, depth 0 or 0 siblings RuntimeError, child labels overwrite the first label, the last label column is always -1 (C67).
* Layer: a channel size of 1 broadcasts silently, a tuple plane_shape fails (C68).
* Stiefel: CanonicalStiefel.retr_transp raises for arguments that retr and transp_follow_retr broadcast (the view uses the shape of x, cat needs equal batches), EuclideanStiefel.expmap raises when x and u have different batch axes (C122).
* SPD: check_point raises on an empty batch, origin silently ignores the last size and raises for a tuple (C123).
* Birkhoff: projx, retr and random raise on an empty batch (C124).
* Floating point: arsinh cancels for large negative arguments (constant log(1e-15), then +infinity), so signed plane distances are not antisymmetric (C128); the Lorentz distance of a far point to itself is negative (C129).
* Sphere: the squared distance has gradient zero within acos(1 - eps) of the target (1.4e-2 in float32 with eps = 1e-4) while the distance stays positive; Poincaré ball: zero gradient for pairs beyond the clamp of artanh (C130).
* Lorentz: expmap with a step shorter than 1e-4 rescales the base point, so gradient steps with small learning rates (below about 2.5e-9 in the norm squared of the step) can increase the loss (C131).
* BoundedDomain: egrad2rgrad symmetrises only after multiplying with 1 - conj(z) z, so for a loss whose Euclidean gradient is not a symmetric matrix gradient steps can increase the loss for all small learning rates (C133).
* Weight decay has no effect on Sphere and Stiefel parameters: the added multiple of the point is projected away (C134).
* Scaled does not forward component_inner, so RiemannianAdam on Scaled(Euclidean) or Scaled(ProductManifold) uses one second moment for the whole point instead of one per entry or component, even with scale 1 (C137).
* Lorentz: expmap with steps shorter than 1e-4 depends on the position of the origin, so RiemannianSGD is not invariant under boosts for short steps (C139).
* RiemannianLineSearch cannot be resumed from a checkpoint: old_phi0, last_step_size and the cached gradients are attributes outside state_dict(), so the first Armijo step after loading starts from 1 instead of the extrapolated step (C144).
* Lorentz: a parameter with zero gradient drifts away under RiemannianSGD, its space coordinates growing by the factor cosh(1e-4 / sqrt k) per step whatever the learning rate (C145).
* RiemannianSGD with momentum leaves a critical point in the first step, because the buffer starts as the unprojected gradient (C145).
