(** Properties C35-C45: the kappa-stereographic model.
    [n] is the dimension, [k] the curvature, [e] the eps inside sabs (the
    library's value is e15 = 1e-15; theorems without a condition on [e] beyond
    0 <= e cover it). Vectors are functions read on indices below [n]. *)
From Coq Require Import Reals Lra List.
From Verif Require Import RVec StereoModel StereoSpec StereoBatchModel
  StereoProofs StereoProofs2 StereoProofs3 StereoProofs4.
Import ListNotations.
Local Open Scope R_scope.

(** ** C35: gyrogroup laws *)
Theorem C35_identity : forall n k x,
  mobius_add n k vzero x = x /\ mobius_add n k x vzero = x.
Proof. exact (fun n k x => conj (add_0_l n k x) (add_0_r n k x)). Qed.
Print Assumptions C35_identity.

Theorem C35_left_inverse : forall n k x, mobius_add n k (vopp x) x = vzero.
Proof. exact add_opp_l. Qed.
Print Assumptions C35_left_inverse.

Theorem C35_left_cancellation : forall n k x y,
  regular n k x y -> regular n k (vopp x) (mobius_add n k x y) ->
  mobius_add n k (vopp x) (mobius_add n k x y) = y.
Proof. exact left_cancel. Qed.
Print Assumptions C35_left_cancellation.
Example C35_case : regular 1 1 (pt (1/2)) (pt (1/4))
  /\ regular 1 1 (vopp (pt (1/2))) (mobius_add 1 1 (pt (1/2)) (pt (1/4))).
Proof. exact ex_left_cancel. Qed.

(** In the ball the denominators need no hypothesis. *)
Theorem C35_left_cancellation_ball : forall n k x y,
  k < 0 -> safe n k x -> in_domain n k y ->
  mobius_add n k (vopp x) (mobius_add n k x y) = y.
Proof. exact ball_left_cancel. Qed.
Print Assumptions C35_left_cancellation_ball.
Example C35_ball_case : safe 1 (-1) (pt (1/2)) /\ in_domain 1 (-1) (pt (3/4)).
Proof. exact ex_ball. Qed.

Theorem C35_gyration_isometry : forall n k u v w z, regular n k u v ->
  dot n (gyration n k u v w) (gyration n k u v z) = dot n w z.
Proof. exact gyr_iso. Qed.
Print Assumptions C35_gyration_isometry.

Theorem C35_gyroassociative : forall n k u v w,
  regular n k v w -> regular n k u v -> regular n k u (mobius_add n k v w) ->
  regular n k (mobius_add n k u v) (gyration n k u v w) ->
  mobius_add n k u (mobius_add n k v w) = mobius_add n k (mobius_add n k u v) (gyration n k u v w).
Proof. exact gyro_assoc. Qed.
Print Assumptions C35_gyroassociative.

Theorem C35_gyroassociative_ball : forall n k u v w,
  k < 0 -> safe n k u -> safe n k v -> safe n k w ->
  mobius_add n k u (mobius_add n k v w) = mobius_add n k (mobius_add n k u v) (gyration n k u v w).
Proof. exact ball_assoc. Qed.
Print Assumptions C35_gyroassociative_ball.

Theorem C35_gyrocommutative : forall n k u v, regular n k u v ->
  mobius_add n k u v = gyration n k u v (mobius_add n k v u).
Proof. exact gyro_comm. Qed.
Print Assumptions C35_gyrocommutative.

Theorem C35_left_loop : forall n k u v w,
  regular n k u v -> regular n k (mobius_add n k u v) v ->
  gyration n k (mobius_add n k u v) v w = gyration n k u v w.
Proof. exact gyro_loop. Qed.
Print Assumptions C35_left_loop.

Theorem C35_gyration_inverse : forall n k u v w, regular n k u v ->
  gyration n k v u (gyration n k u v w) = w.
Proof. exact gyr_inverse. Qed.
Print Assumptions C35_gyration_inverse.

(** ** C36: operations stay in the ball *)
Theorem C36_add_in_ball : forall n k x y,
  k < 0 -> in_domain n k x -> in_domain n k y -> in_domain n k (mobius_add n k x y).
Proof. exact add_in_domain. Qed.
Print Assumptions C36_add_in_ball.
Example C36_case : in_domain 1 (-1) (pt (3/4)) /\ ~ in_domain 1 (-1) (pt 1).
Proof. exact ex_domain. Qed.

Theorem C36_denominator_positive : forall n k x y,
  k < 0 -> in_domain n k x -> in_domain n k y ->
  0 < 1 - 2 * k * dot n x y + k ^ 2 * dot n x x * dot n y y.
Proof. exact mden_pos_domain. Qed.
Print Assumptions C36_denominator_positive.

Theorem C36_expmap_in_ball : forall n e k x u,
  0 <= e -> k < - / 10 ^ 8 -> in_domain n k x -> in_domain n k (expmap n e k x u).
Proof. exact expmap_in_domain. Qed.
Print Assumptions C36_expmap_in_ball.

Theorem C36_expmap0_in_ball : forall n e k u,
  0 <= e -> k < - / 10 ^ 8 -> in_domain n k (expmap0 n e k u).
Proof. exact expmap0_in_domain. Qed.
Print Assumptions C36_expmap0_in_ball.

Theorem C36_geodesic_in_ball : forall n e k t x y,
  0 <= e -> k < - / 10 ^ 8 -> in_domain n k x -> in_domain n k (geodesic n e k t x y).
Proof. exact geodesic_in_domain. Qed.
Print Assumptions C36_geodesic_in_ball.

Theorem C36_geodesic_unit_in_ball : forall n e k t x u,
  0 <= e -> k < - / 10 ^ 8 -> in_domain n k x -> in_domain n k (geodesic_unit n e k t x u).
Proof. exact geodesic_unit_in_domain. Qed.
Print Assumptions C36_geodesic_unit_in_ball.

Theorem C36_scalar_mul_in_ball : forall n e k r x,
  0 <= e -> k < - / 10 ^ 8 -> in_domain n k (mobius_scalar_mul n e k r x).
Proof. exact scalar_mul_in_domain. Qed.
Print Assumptions C36_scalar_mul_in_ball.

(** For -1e-8 <= k < 0 the series replaces tanh and the ball is left. *)
Theorem C36_small_curvature_refuted : exists k u,
  k < 0 /\ ~ in_domain 1 k (expmap0 1 e15 k u).
Proof. exact expmap_leaves_ball_lemma. Qed.
Print Assumptions C36_small_curvature_refuted.

Theorem C36_project_norm : forall n e eps k x, 0 <= e -> 0 <= eps < 1 ->
  nrm n (project n e eps k x) <= maxnorm e eps k.
Proof. exact project_nrm. Qed.
Print Assumptions C36_project_norm.

(** float64 (eps = 1e-5): the projected point is in the safe ball. *)
Theorem C36_project_safe : forall n e k x, 0 <= e -> k < 0 ->
  safe n k (project n e (/ 10 ^ 5) k x).
Proof. exact project_safe. Qed.
Print Assumptions C36_project_safe.

Theorem C36_project_fixes_inside : forall n e eps k x,
  nrm n x <= maxnorm e eps k -> e15 <= maxnorm e eps k -> project n e eps k x = x.
Proof. exact project_id. Qed.
Print Assumptions C36_project_fixes_inside.

Theorem C36_project_idempotent : forall n e eps k x, 0 <= e -> 0 <= eps < 1 ->
  e15 <= maxnorm e eps k ->
  project n e eps k (project n e eps k x) = project n e eps k x.
Proof. exact project_idem. Qed.
Print Assumptions C36_project_idempotent.

Theorem C36_project_to_boundary : forall n e eps k x, 0 <= e -> 0 <= eps < 1 ->
  e15 <= nrm n x -> maxnorm e eps k < nrm n x ->
  nrm n (project n e eps k x) = maxnorm e eps k.
Proof. exact project_boundary. Qed.
Print Assumptions C36_project_to_boundary.
Example C36_project_case : e15 <= nrm 1 (pt 2) /\ maxnorm e15 (/ 10 ^ 5) (-1) < nrm 1 (pt 2)
  /\ e15 <= maxnorm e15 (/ 10 ^ 5) (-1).
Proof. exact ex_project. Qed.

(** ** C37: distance *)
Theorem C37_nonneg : forall n e k x y, 0 <= e -> closed_form k -> 0 <= dist n e k x y.
Proof. exact dist_nonneg. Qed.
Print Assumptions C37_nonneg.
Theorem C37_symmetric : forall n e k x y, dist n e k x y = dist n e k y x.
Proof. exact dist_sym. Qed.
Print Assumptions C37_symmetric.
Theorem C37_self : forall n e k x, dist n e k x x = 0.
Proof. exact dist_self. Qed.
Print Assumptions C37_self.
Theorem C37_separates : forall n e k x y, 0 <= e -> closed_form k -> regular n k (vopp x) y ->
  dist n e k x y = 0 -> same n x y.
Proof. exact dist_zero. Qed.
Print Assumptions C37_separates.
Theorem C37_dist0 : forall n e k x, dist n e k vzero x = dist0 n e k x.
Proof. exact dist_from_0. Qed.
Print Assumptions C37_dist0.
Theorem C37_flat : forall n e x y, dist n e 0 x y = 2 * nrm n (vsub x y).
Proof. exact dist_k0. Qed.
Print Assumptions C37_flat.
Theorem C37_left_invariant : forall n e k u x y,
  regular n k u x -> regular n k u y -> regular n k (vopp x) y -> 1 + k * dot n u u <> 0 ->
  regular n k (vopp (mobius_add n k u x)) (mobius_add n k u y) ->
  dist n e k (mobius_add n k u x) (mobius_add n k u y) = dist n e k x y.
Proof. exact dist_translate. Qed.
Print Assumptions C37_left_invariant.
(** Triangle inequality, proved for the formula without sabs's eps (e = 0); with
    e = 1e-15 it fails by a rounding-size amount (refutation below) and holds up to
    the factor of C37_triangle_library (StereoApproxProps.v). *)
Theorem C37_triangle_exact : forall n k x y z, closed_form k ->
  in_domain n k x -> in_domain n k y -> in_domain n k z ->
  regular n k (vopp x) y -> regular n k (vopp y) z -> regular n k (vopp x) z ->
  dist n 0 k x z <= dist n 0 k x y + dist n 0 k y z.
Proof. exact triangle. Qed.
Print Assumptions C37_triangle_exact.
Example C37_triangle_case : closed_form (-1) /\ in_domain 1 (-1) (pt (1/2)) /\
  in_domain 1 (-1) (pt 0) /\ in_domain 1 (-1) (pt (1/4)) /\
  regular 1 (-1) (vopp (pt (1/2))) (pt 0) /\ regular 1 (-1) (vopp (pt 0)) (pt (1/4)) /\
  regular 1 (-1) (vopp (pt (1/2))) (pt (1/4)).
Proof. exact ex_triangle. Qed.
Theorem C37_triangle_refuted : exists k x y z,
  k = -1 /\ safe 1 k x /\ safe 1 k y /\ safe 1 k z /\
  dist 1 e15 k x y + dist 1 e15 k y z < dist 1 e15 k x z.
Proof. exact triangle_refuted_lemma. Qed.
Print Assumptions C37_triangle_refuted.
(** 0 < k <= 1e-8: the series makes distances negative. *)
Theorem C37_negative_distance_refuted : exists k x y, 0 < k /\ dist 1 e15 k x y < 0.
Proof. exact dist_negative_lemma. Qed.
Print Assumptions C37_negative_distance_refuted.
(** k > 0: exactly antipodal points are at computed distance 0. *)
Theorem C37_antipodal_refuted : forall e, dist 1 e 1 (pt 1) (pt (-1)) = 0.
Proof. exact dist_antipodal_lemma. Qed.
Print Assumptions C37_antipodal_refuted.

(** ** C38: exp and log *)
Theorem C38_exp_log : forall n e k x y, 0 <= e -> closed_form k ->
  regular n k (vopp x) y -> regular n k x (mobius_add n k (vopp x) y) ->
  norm_ok n (mobius_add n k (vopp x) y) ->
  length_ok e k (nrm n (mobius_add n k (vopp x) y)) ->
  norm_ok n (logmap n e k x y) ->
  same n (expmap n e k x (logmap n e k x y)) y.
Proof. exact exp_log. Qed.
Print Assumptions C38_exp_log.

Theorem C38_log_exp : forall n e k x u, 0 <= e -> closed_form k -> norm_ok n u ->
  angle_ok e k (lambda_x n k x * nrm n u / 2) ->
  e15 <= tan_k e (lambda_x n k x * nrm n u / 2) k \/ nrm n u = 0 ->
  regular n k x (smul (tan_k e (lambda_x n k x * nrm n u / 2) k) (vdiv u (nrm n u))) ->
  regular n k (vopp x) (expmap n e k x u) ->
  same n (logmap n e k x (expmap n e k x u)) u.
Proof. exact log_exp. Qed.
Print Assumptions C38_log_exp.

(** Poincare ball versions: only the clamps on lengths remain as hypotheses. *)
Theorem C38_exp_log_ball : forall n e k x y, 0 <= e -> k < - / 10 ^ 8 ->
  safe n k x -> in_domain n k y ->
  norm_ok n (mobius_add n k (vopp x) y) ->
  length_ok e k (nrm n (mobius_add n k (vopp x) y)) ->
  norm_ok n (logmap n e k x y) ->
  same n (expmap n e k x (logmap n e k x y)) y.
Proof. exact ball_exp_log. Qed.
Print Assumptions C38_exp_log_ball.

Theorem C38_log_exp_ball : forall n e k x u, 0 <= e -> k < - / 10 ^ 8 ->
  safe n k x -> norm_ok n u ->
  angle_ok e k (lambda_x n k x * nrm n u / 2) ->
  e15 <= tan_k e (lambda_x n k x * nrm n u / 2) k \/ nrm n u = 0 ->
  same n (logmap n e k x (expmap n e k x u)) u.
Proof. exact ball_log_exp. Qed.
Print Assumptions C38_log_exp_ball.

(** A case meeting the hypotheses of both: x = 0 and |y| = 1/2, resp. |u| = 1/2. *)
Example C38_case : safe 1 (-1) vzero /\ in_domain 1 (-1) (pt (1/2)) /\
  norm_ok 1 (mobius_add 1 (-1) (vopp vzero) (pt (1/2))) /\
  length_ok e15 (-1) (nrm 1 (mobius_add 1 (-1) (vopp vzero) (pt (1/2)))) /\
  norm_ok 1 (logmap 1 e15 (-1) vzero (pt (1/2))).
Proof. exact ex_exp_log. Qed.
Example C38_log_exp_case : norm_ok 1 (pt (1/2)) /\
  angle_ok e15 (-1) (lambda_x 1 (-1) vzero * nrm 1 (pt (1/2)) / 2) /\
  e15 <= tan_k e15 (lambda_x 1 (-1) vzero * nrm 1 (pt (1/2)) / 2) (-1).
Proof. exact ex_log_exp. Qed.

Theorem C38_expmap0 : forall n e k u, expmap n e k vzero u = expmap0 n e k u.
Proof. exact expmap_at_0. Qed.
Print Assumptions C38_expmap0.
Theorem C38_logmap0 : forall n e k y, logmap n e k vzero y = logmap0 n e k y.
Proof. exact logmap_at_0. Qed.
Print Assumptions C38_logmap0.
Theorem C38_norm_log_is_dist : forall n e k x y, 0 <= e -> closed_form k ->
  norm_ok n (mobius_add n k (vopp x) y) -> norm n k x (logmap n e k x y) = dist n e k x y.
Proof. exact norm_log. Qed.
Print Assumptions C38_norm_log_is_dist.

(** ** C39: geodesics *)
Theorem C39_start : forall n e k x y, geodesic n e k 0 x y = x.
Proof. exact geodesic_0. Qed.
Print Assumptions C39_start.
Theorem C39_end : forall n e k x y, 0 <= e -> closed_form k ->
  regular n k (vopp x) y -> regular n k x (mobius_add n k (vopp x) y) ->
  norm_ok n (mobius_add n k (vopp x) y) -> length_ok e k (nrm n (mobius_add n k (vopp x) y)) ->
  same n (geodesic n e k 1 x y) y.
Proof. exact geodesic_1. Qed.
Print Assumptions C39_end.
Theorem C39_proportional : forall n e k t x y, 0 <= e -> closed_form k -> 0 <= t <= 1 ->
  norm_ok n (mobius_add n k (vopp x) y) ->
  regular n k x (mobius_scalar_mul n e k t (mobius_add n k (vopp x) y)) ->
  regular n k (vopp x) (geodesic n e k t x y) ->
  dist n e k x (geodesic n e k t x y) = t * dist n e k x y.
Proof. exact geodesic_dist. Qed.
Print Assumptions C39_proportional.
Theorem C39_proportional_ball : forall n e k t x y, 0 <= e -> k < - / 10 ^ 8 -> 0 <= t <= 1 ->
  safe n k x -> in_domain n k y -> norm_ok n (mobius_add n k (vopp x) y) ->
  dist n e k x (geodesic n e k t x y) = t * dist n e k x y.
Proof. exact ball_geodesic_dist. Qed.
Print Assumptions C39_proportional_ball.
Theorem C39_unit_start : forall n e k x u, geodesic_unit n e k 0 x u = x.
Proof. exact geodesic_unit_0. Qed.
Print Assumptions C39_unit_start.
Theorem C39_unit_speed : forall n e k t x u, 0 <= e -> closed_form k -> 0 <= t ->
  e15 <= nrm n u -> angle_ok e k (t / 2) ->
  regular n k x (smul (tan_k e (t / 2) k) (vdiv u (nrm n u))) ->
  regular n k (vopp x) (geodesic_unit n e k t x u) ->
  dist n e k x (geodesic_unit n e k t x u) = t.
Proof. exact geodesic_unit_dist. Qed.
Print Assumptions C39_unit_speed.

(** ** C40: parallel transport *)
Theorem C40_linear : forall n k c x y u v,
  parallel_transport n k x y (vadd u v) =
    vadd (parallel_transport n k x y u) (parallel_transport n k x y v) /\
  parallel_transport n k x y (smul c u) = smul c (parallel_transport n k x y u).
Proof. exact (fun n k c x y u v => conj (transport_add n k x y u v) (transport_smul n k c x y u)). Qed.
Print Assumptions C40_linear.
Theorem C40_isometry : forall n k x y u v, regular n k y (vopp x) ->
  inner n k y (parallel_transport n k x y u) (parallel_transport n k x y v) = inner n k x u v.
Proof. exact transport_inner. Qed.
Print Assumptions C40_isometry.
Theorem C40_inverse : forall n k x y u, regular n k y (vopp x) ->
  parallel_transport n k y x (parallel_transport n k x y u) = u.
Proof. exact transport_inv. Qed.
Print Assumptions C40_inverse.
Example C40_case : regular 1 (-1) (pt (1/2)) (vopp (pt (1/4))).
Proof. exact ex_transport. Qed.
Theorem C40_transp0 : forall n k y v,
  parallel_transport n k vzero y v = parallel_transport0 n k y v /\
  parallel_transport n k y vzero v = parallel_transport0back n k y v.
Proof. exact (fun n k y v => conj (transport_from_0 n k y v) (transport_to_0 n k y v)). Qed.
Print Assumptions C40_transp0.
Theorem C40_transp0_inverse : forall n k x v,
  parallel_transport0back n k x (parallel_transport0 n k x v) = v /\
  parallel_transport0 n k x (parallel_transport0back n k x v) = v.
Proof. exact (fun n k x v => conj (transport0_inv n k x v) (transport0_inv' n k x v)). Qed.
Print Assumptions C40_transp0_inverse.

(** ** C41: metric and gradient *)
Theorem C41_inner_symmetric : forall n k x u v, inner n k x u v = inner n k x v u.
Proof. exact inner_sym. Qed.
Print Assumptions C41_inner_symmetric.
Theorem C41_inner_linear : forall n k x c u v w,
  inner n k x (vadd u v) w = inner n k x u w + inner n k x v w /\
  inner n k x (smul c u) w = c * inner n k x u w.
Proof. exact (fun n k x c u v w => conj (inner_add n k x u v w) (inner_smul n k x c u w)). Qed.
Print Assumptions C41_inner_linear.
Theorem C41_inner_positive : forall n k x u, ~ same n u vzero -> 0 < inner n k x u u.
Proof. exact inner_pos. Qed.
Print Assumptions C41_inner_positive.
Theorem C41_gradient : forall n k x g v, inner n k x (egrad2rgrad n k x g) v = dot n g v.
Proof. exact rgrad. Qed.
Print Assumptions C41_gradient.
Theorem C41_norm : forall n k x u, norm n k x u ^ 2 = inner n k x u u.
Proof. exact norm_inner. Qed.
Print Assumptions C41_norm.

(** ** C42: shape of inner *)
Theorem C42_rank_refuted : forall B n r,
  inner_shape false (B ++ [n]) (B ++ [n]) = Some r -> length r = S (length B).
Proof. exact inner_rank. Qed.
Print Assumptions C42_rank_refuted.
Theorem C42_square_refuted : forall b n, (1 <= b)%nat ->
  inner_shape false [b; n] [b; n] = Some [b; b].
Proof. exact inner_square. Qed.
Print Assumptions C42_square_refuted.
Theorem C42_keepdim_shape : forall B n, (forall d, In d B -> (1 <= d)%nat) ->
  inner_shape true (B ++ [n]) (B ++ [n]) = Some (B ++ [1%nat]).
Proof. exact inner_keepdim. Qed.
Print Assumptions C42_keepdim_shape.
Theorem C42_norm_shape : forall keepdim B n, (forall d, In d B -> (1 <= d)%nat) ->
  norm_shape keepdim (B ++ [n]) (B ++ [n]) = Some (if keepdim then B ++ [1%nat] else B).
Proof. exact norm_shape_right. Qed.
Print Assumptions C42_norm_shape.
(** The extra entries are not inner products of any row. *)
Theorem C42_cross_terms_refuted : exists k xs us,
  inner_rows 1 k xs us us 0 1 <> inner 1 k (xs 0%nat) (us 0%nat) (us 0%nat) /\
  inner_rows 1 k xs us us 0 1 <> inner 1 k (xs 1%nat) (us 1%nat) (us 1%nat).
Proof. exact ex_cross_terms. Qed.
Print Assumptions C42_cross_terms_refuted.

(** ** C43: scalar multiplication *)
Theorem C43_one : forall n e k x, 0 <= e -> closed_form k -> norm_ok n x ->
  length_ok e k (nrm n x) -> same n (mobius_scalar_mul n e k 1 x) x.
Proof. exact scalar_mul_1. Qed.
Print Assumptions C43_one.
Theorem C43_associative : forall n e k r1 r2 x, 0 <= e -> closed_form k -> norm_ok n x ->
  angle_ok e k (Rabs r2 * artan_k e (nrm n x) k) ->
  angle_ok e k (Rabs (r1 * r2) * artan_k e (nrm n x) k) ->
  norm_ok n (mobius_scalar_mul n e k r2 x) ->
  same n (mobius_scalar_mul n e k r1 (mobius_scalar_mul n e k r2 x))
         (mobius_scalar_mul n e k (r1 * r2) x).
Proof. exact scalar_mul_mul. Qed.
Print Assumptions C43_associative.
Theorem C43_distance_scales : forall n e k r x, 0 <= e -> closed_form k -> norm_ok n x ->
  angle_ok e k (Rabs r * artan_k e (nrm n x) k) ->
  dist0 n e k (mobius_scalar_mul n e k r x) = Rabs r * dist0 n e k x.
Proof. exact dist0_scalar_mul. Qed.
Print Assumptions C43_distance_scales.
(** Distributivity, for the formula without sabs's eps (e = 0); for the library's
    e = 1e-15 see C43_distributive_ball, _sphere and _refuted (StereoApproxProps.v). *)
Theorem C43_distributive_exact : forall n k r1 r2 x, closed_form k -> norm_ok n x ->
  let A := artan_k 0 (nrm n x) k in
  small_angle k (r1 * A) -> small_angle k (r2 * A) -> small_angle k ((r1 + r2) * A) ->
  regular n k (mobius_scalar_mul n 0 k r1 x) (mobius_scalar_mul n 0 k r2 x) ->
  same n (mobius_scalar_mul n 0 k (r1 + r2) x)
    (mobius_add n k (mobius_scalar_mul n 0 k r1 x) (mobius_scalar_mul n 0 k r2 x)).
Proof. exact scalar_mul_plus. Qed.
Print Assumptions C43_distributive_exact.

(** ** C44: stereographic projection *)
(** The ambient surface as computed: k|A|^2 + (|k|+e) B^2 = 1 (at e = 0 the
    sphere, k > 0, or hyperboloid, k < 0, of curvature k). *)
Theorem C44_into_surface : forall n e k x, 0 <= e -> k <> 0 \/ 0 < e ->
  e15 <= 1 + k * dot n x x ->
  k * dot n (inv_sproj n e k x) (inv_sproj n e k x) + (Rabs k + e) * (inv_sproj n e k x n) ^ 2 = 1
  /\ 0 < 1 + sqrt (Rabs k + e) * inv_sproj n e k x n.
Proof. exact inv_sproj_surface. Qed.
Print Assumptions C44_into_surface.
Theorem C44_left_inverse : forall n e k x, 0 <= e -> k <> 0 \/ 0 < e ->
  same n (sproj n e k (inv_sproj n e k x)) x.
Proof. exact sproj_inv. Qed.
Print Assumptions C44_left_inverse.
Theorem C44_right_inverse : forall n e k z, 0 <= e -> k <> 0 \/ 0 < e ->
  k * dot n z z + (Rabs k + e) * z n ^ 2 = 1 ->
  0 < 1 + sqrt (Rabs k + e) * z n <= 2 * 10 ^ 15 ->
  same (S n) (inv_sproj n e k (sproj n e k z)) z.
Proof. exact inv_sproj_sproj. Qed.
Print Assumptions C44_right_inverse.
Example C44_case : exists z : vec,
  1 * dot 1 z z + (Rabs 1 + 0) * z 1%nat ^ 2 = 1 /\
  0 < 1 + sqrt (Rabs 1 + 0) * z 1%nat <= 2 * 10 ^ 15 /\ z 0%nat <> 0.
Proof. exact ex_surface. Qed.

(** ** C45: independence of the batch *)
Theorem C45_tan_k : forall e l, tan_k_batch e l = map (fun p => tan_k_at e (fst p) (snd p)) l.
Proof. exact tan_k_batch_map. Qed.
Print Assumptions C45_tan_k.
Theorem C45_artan_k : forall e l, artan_k_batch e l = map (fun p => artan_k_at e (fst p) (snd p)) l.
Proof. exact artan_k_batch_map. Qed.
Print Assumptions C45_artan_k.
Theorem C45_sin_k : forall e l, (forall p, In p l -> closed_form (snd p)) ->
  sin_k_batch e l = map (fun p => sin_k_at e (fst p) (snd p)) l.
Proof. exact sin_k_batch_map. Qed.
Print Assumptions C45_sin_k.
Theorem C45_arsin_k : forall e l, (forall p, In p l -> closed_form (snd p) /\
    (0 < snd p -> Rabs (fst p) * rt e (snd p) <= 1 - / 10 ^ 7)) -> 0 <= e ->
  arsin_k_batch e l = map (fun p => arsin_k_at e (fst p) (snd p)) l.
Proof. exact arsin_k_batch_map. Qed.
Print Assumptions C45_arsin_k.
Theorem C45_sin_k_refuted : exists e x k k',
  e = e15 /\ nth 0 (sin_k_batch e [(x, k)]) 0 <> nth 0 (sin_k_batch e [(x, k); (x, k')]) 0.
Proof. exact sin_k_batch_refuted_lemma. Qed.
Print Assumptions C45_sin_k_refuted.
Theorem C45_arsin_k_refuted : exists e x k k',
  e = e15 /\ nth 0 (arsin_k_batch e [(x, k)]) 0 <> nth 0 (arsin_k_batch e [(x, k); (x, k')]) 0.
Proof. exact arsin_k_batch_refuted_lemma. Qed.
Print Assumptions C45_arsin_k_refuted.
