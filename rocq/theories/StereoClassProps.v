(** Properties C113-C114: the classes of stereographic/manifold.py.  [eps] is the margin of
    math.project (1e-5, or 4e-3 for float32), [maxnorm e eps k] the largest norm it leaves. *)
From Coq Require Import Reals Lra List.
From Verif Require Import RVec StereoModel StereoSpec StereoProofs4 StereoExtraModel StereoExtraSpec StereoClass.
Import ListNotations.
Local Open Scope R_scope.

(** ** C113: curvature of PoincareBall and SphereProjection *)
(** Whatever value the parameter takes in training, the sign of the curvature stays. *)
Theorem C113_sign : forall isp, ball_k isp < 0 /\ 0 < ball_c isp /\ 0 < sphere_k isp.
Proof. exact (softplus_signs). Qed.
Print Assumptions C113_sign.

(** The curvature given to the constructor is the curvature of the manifold, up to 20 ... *)
Theorem C113_roundtrip : forall c, 0 < c <= 20 ->
  ball_c (inverse_softplus c) = c /\ ball_k (inverse_softplus c) = - c /\ sphere_k (inverse_softplus c) = c.
Proof. exact (softplus_roundtrip). Qed.
Print Assumptions C113_roundtrip.

Theorem C113_close : forall c, 0 < c -> c - / 10 ^ 5 <= ball_c (inverse_softplus c) <= c.
Proof. exact (softplus_gap). Qed.
Print Assumptions C113_close.

(** ... and never above 21, where torch's softplus is the identity. *)
Theorem C113_large_refuted : forall c, 21 <= c -> ball_c (inverse_softplus c) < c.
Proof. exact (softplus_not_inverse). Qed.
Print Assumptions C113_large_refuted.

(** ** C114: class Stereographic *)
(** What every method with project=True (the default) returns is within maxnorm and accepted by
    _check_point_on_manifold, for all arguments and any tolerances. *)
Theorem C114_results_accepted : forall n e eps k atol rtol, 0 <= e -> 0 <= eps < 1 -> / 10 ^ 15 <= maxnorm e eps k -> 0 <= atol -> 0 <= rtol ->
  forall x y u w t fn fns lincomb posweight l mean std,
  Forall (fun r => nrm n r <= maxnorm e eps k /\ check_point n e eps k atol rtol r = true)
    [projx n e eps k x; retr n e eps k x u; exact_retr n e eps k true x u; m_expmap n e eps k true x u; m_expmap0 n e eps k true u;
     m_mobius_add n e eps k true x y; m_mobius_sub n e eps k true x y; m_mobius_coadd n e eps k true x y; m_mobius_cosub n e eps k true x y;
     m_scalar_mul n e eps k true t x; m_pointwise_mul n e eps k true w x; m_geodesic_unit n e eps k true t x u;
     m_fn_apply n e eps k true fn x; m_fn_apply_chain n e eps k true x fns; m_weighted_midpoint n e eps k true lincomb posweight l;
     fst (m_expmap_transp n e eps k true x u w); fst (m_retr_transp n e eps k x u w); fst (exact_retr_transp n e eps k true x u w);
     random_normal n e eps k mean std w; wrapped_normal n e eps k x std w].
Proof. exact (all_allowed). Qed.
Print Assumptions C114_results_accepted.

(** With project=False each method is the function of the same name, by default its projection. *)
Theorem C114_methods_agree : forall n e eps k (proj : bool) x y u w t fn fns lincomb posweight l,
  [m_expmap n e eps k proj x u; m_expmap0 n e eps k proj u; m_mobius_add n e eps k proj x y; m_mobius_sub n e eps k proj x y;
   m_mobius_coadd n e eps k proj x y; m_mobius_cosub n e eps k proj x y; m_scalar_mul n e eps k proj t x;
   m_pointwise_mul n e eps k proj w x; m_geodesic_unit n e eps k proj t x u; m_fn_apply n e eps k proj fn x;
   m_fn_apply_chain n e eps k proj x fns; m_weighted_midpoint n e eps k proj lincomb posweight l] =
  map (fun r => if proj then project n e eps k r else r)
  [expmap n e k x u; expmap0 n e k u; mobius_add n k x y; mobius_sub n k x y;
   mobius_coadd n k x y; mobius_cosub n k x y; mobius_scalar_mul n e k t x;
   mobius_pointwise_mul n e k w x; geodesic_unit n e k t x u; mobius_fn_apply n e k fn x;
   mobius_fn_apply_chain n e k x fns; weighted_midpoint n e e10 k lincomb posweight l].
Proof. exact (methods_agree). Qed.
Print Assumptions C114_methods_agree.

Theorem C114_matvec_accepted : forall n p e eps k atol rtol, 0 <= e -> 0 <= eps < 1 -> / 10 ^ 15 <= maxnorm e eps k -> 0 <= atol -> 0 <= rtol ->
  forall m x, nrm p (m_matvec n e eps k true p m x) <= maxnorm e eps k /\ check_point p e eps k atol rtol (m_matvec n e eps k true p m x) = true.
Proof. exact (fun n p e eps k atol rtol E EPS M A B m x => allowed_project p e eps k atol rtol _ E EPS M A B). Qed.
Print Assumptions C114_matvec_accepted.

(** With tolerances 0 exactly the points within maxnorm are accepted. *)
Theorem C114_check_exact : forall n e k, 0 <= e -> forall eps, 0 <= eps < 1 -> / 10 ^ 15 <= maxnorm e eps k -> forall x,
  check_point n e eps k 0 0 x = true <-> nrm n x <= maxnorm e eps k.
Proof. exact (check_point_exact). Qed.
Print Assumptions C114_check_exact.

Theorem C114_check_bound : forall n e k, 0 <= e -> forall eps, 0 <= eps < 1 -> forall atol rtol x, 0 <= atol -> 0 <= rtol ->
  check_point n e eps k atol rtol x = true -> forall i, (i < n)%nat -> Rabs (x i) <= (1 + rtol) * maxnorm e eps k + atol.
Proof. exact (check_point_bound). Qed.
Print Assumptions C114_check_bound.

(** With the default tolerances 1e-5 a point outside the Poincare ball is accepted. *)
Theorem C114_outside_refuted : ~ in_domain 1 (-1) (pt (1000005 / 1000000)) /\
  check_point 1 e15 (/ 10 ^ 5) (-1) (/ 10 ^ 5) (/ 10 ^ 5) (pt (1000005 / 1000000)) = true.
Proof. exact (outside_accepted). Qed.
Print Assumptions C114_outside_refuted.

(** geodesic has no project argument: extended beyond two accepted points it yields a point that is rejected (float32). *)
Theorem C114_geodesic_refuted : let eps := 4 / 1000 in
  check_point 1 e15 eps (-1) 0 0 vzero = true /\ check_point 1 e15 eps (-1) 0 0 (pt (99 / 100)) = true /\
  check_point 1 e15 eps (-1) (/ 10 ^ 5) (/ 10 ^ 5) (m_geodesic 1 e15 (-1) 2 vzero (pt (99 / 100))) = false.
Proof. exact (geodesic_rejected). Qed.
Print Assumptions C114_geodesic_refuted.

(** The default retraction is the projected sum; it does nothing for u = 0. *)
Theorem C114_retr : forall n e k eps, / 10 ^ 15 <= maxnorm e eps k -> forall x u,
  (nrm n (vadd x u) <= maxnorm e eps k -> retr n e eps k x u = vadd x u) /\ (nrm n x <= maxnorm e eps k -> retr n e eps k x vzero = x).
Proof. exact (fun n e k eps M x u => conj (retr_inside n e k eps M x u) (retr_zero n e k eps M x)). Qed.
Print Assumptions C114_retr.

(** The exact classes' retraction travels the length of u, when the result is not cut. *)
Theorem C114_exact_retr : forall n e eps k x u, 0 <= e -> 0 <= eps < 1 -> / 10 ^ 15 <= maxnorm e eps k -> k < - / 10 ^ 8 -> safe n k x -> norm_ok n u ->
  angle_ok e k (lambda_x n k x * nrm n u / 2) -> nrm n (expmap n e k x u) <= maxnorm e eps k ->
  dist n e k x (exact_retr n e eps k true x u) = norm n k x u.
Proof. exact (exact_retr_dist). Qed.
Print Assumptions C114_exact_retr.

(** Transport to wherever the step ends keeps inner products (float64 ball). *)
Theorem C114_expmap_transp : forall n e k x u v w, 0 <= e -> k < 0 -> in_domain n k x ->
  let '(y, v') := m_expmap_transp n e (/ 10 ^ 5) k true x u v in
  let '(y2, w') := m_expmap_transp n e (/ 10 ^ 5) k true x u w in
  y2 = y /\ inner n k y v' w' = inner n k x v w.
Proof. exact (expmap_transp_inner). Qed.
Print Assumptions C114_expmap_transp.

Theorem C114_retr_transp : forall n e k x u v w, 0 <= e -> k < 0 -> in_domain n k x ->
  let '(y, v') := m_retr_transp n e (/ 10 ^ 5) k x u v in
  let '(y2, w') := m_retr_transp n e (/ 10 ^ 5) k x u w in
  y2 = y /\ inner n k y v' w' = inner n k x v w.
Proof. exact (retr_transp_inner). Qed.
Print Assumptions C114_retr_transp.

(** The fused calls return the same as the separate ones. *)
Theorem C114_fused : forall n e eps k proj x u v,
  m_expmap_transp n e eps k proj x u v = (m_expmap n e eps k proj x u, m_transp_follow_expmap n e eps k proj x u v) /\
  m_retr_transp n e eps k x u v = (retr n e eps k x u, m_transp_follow_retr n e eps k x u v) /\
  exact_retr_transp n e eps k proj x u v = (exact_retr n e eps k proj x u, exact_transp_follow_retr n e eps k proj x u v).
Proof. exact (follow_is_second). Qed.
Print Assumptions C114_fused.

(** radius: the ball is the set of points of smaller norm, on the sphere points of this norm are half way to
    the antipode of the origin; maxnorm is smaller. *)
Theorem C114_radius_ball : forall n k x, k < 0 -> (in_domain n k x <-> nrm n x < radius k).
Proof. exact (radius_ball). Qed.
Print Assumptions C114_radius_ball.

Theorem C114_radius_sphere : forall n k x, / 10 ^ 8 < k -> nrm n x = radius k -> dist0 n 0 k x = PI / 2 * radius k.
Proof. exact (radius_sphere). Qed.
Print Assumptions C114_radius_sphere.

Theorem C114_maxnorm_radius : forall e eps k, 0 <= e -> 0 < eps < 1 -> k < 0 -> 0 < maxnorm e eps k < radius k.
Proof. exact (maxnorm_radius). Qed.
Print Assumptions C114_maxnorm_radius.

(** Samples: the distance to the origin, resp. the mean, is determined by the length of the draw, when the
    point is not cut (2 is the conformal factor at the origin). *)
Theorem C114_random_normal : forall n e eps k mean std draw, 0 <= e -> 0 <= eps < 1 -> / 10 ^ 15 <= maxnorm e eps k -> closed_form k ->
  let v := fun i => draw i * std / sqrt (INR n) + mean in
  norm_ok n v -> angle_ok e k (nrm n v) -> nrm n (expmap0 n e k v) <= maxnorm e eps k ->
  dist0 n e k (random_normal n e eps k mean std draw) = 2 * nrm n v.
Proof. exact (random_normal_dist). Qed.
Print Assumptions C114_random_normal.

Theorem C114_wrapped_normal : forall n e eps k mean std draw, 0 <= e -> 0 <= eps < 1 -> / 10 ^ 15 <= maxnorm e eps k -> k < - / 10 ^ 8 ->
  safe n k mean -> norm_ok n (vdiv (smul std draw) (lambda_x n k mean)) -> angle_ok e k (Rabs std * nrm n draw / 2) ->
  nrm n (expmap n e k mean (vdiv (smul std draw) (lambda_x n k mean))) <= maxnorm e eps k ->
  dist n e k mean (wrapped_normal n e eps k mean std draw) = Rabs std * nrm n draw.
Proof. exact (wrapped_dist). Qed.
Print Assumptions C114_wrapped_normal.

Example C114_case : 0 <= e15 /\ 0 <= / 10 ^ 5 < 1 /\ / 10 ^ 15 <= maxnorm e15 (/ 10 ^ 5) (-1) /\ safe 1 (-1) (pt (1 / 2)) /\ in_domain 1 (-1) (pt (1 / 2)).
Proof. exact (class_case). Qed.

Example C114_random_case : let v := fun i => pt (1 / 2) i * 1 / sqrt (INR 1) + 0 in
  norm_ok 1 v /\ angle_ok e15 (-1) (nrm 1 v) /\ nrm 1 (expmap0 1 e15 (-1) v) <= maxnorm e15 (/ 10 ^ 5) (-1).
Proof. exact (draw0_case). Qed.

Example C114_wrapped_case :
  norm_ok 1 (vdiv (smul 1 (pt 1)) (lambda_x 1 (-1) vzero)) /\ angle_ok e15 (-1) (Rabs 1 * nrm 1 (pt 1) / 2) /\
  nrm 1 (expmap 1 e15 (-1) vzero (vdiv (smul 1 (pt 1)) (lambda_x 1 (-1) vzero))) <= maxnorm e15 (/ 10 ^ 5) (-1) /\
  safe 1 (-1) vzero.
Proof. exact (draw_case). Qed.

