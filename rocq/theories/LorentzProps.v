
(** Properties C46-C49, C81, C82 and the Lorentz part of C32.
    [d] space dimensions, [k] > 0; [on_hyperboloid] is the upper sheet. *)
From Coq Require Import Reals List ZArith.
From Verif Require Import RVec StereoModel LorentzModel LorentzSpec LorentzProofs LorentzProofs2 LorentzProofs3.
Local Open Scope R_scope.

Example lorentz_case : on_hyperboloid 2 1 pt /\ on_hyperboloid 2 1 (origin 1) /\ tangent 2 pt up_v /\ minkowski 2 up_v up_v = 1.
Proof. exact ex_hyp. Qed.
Example lorentz_far_case : apart 2 1 pt (origin 1) /\ / 10 ^ 8 <= dist 2 1 pt (origin 1) ^ 2.
Proof. exact ex_apart. Qed.
Example lorentz_vector_case : / 10 ^ 8 <= minkowski 2 up_v up_v /\ / 10 ^ 15 * 1 <= minkowski 2 up_v up_v.
Proof. exact ex_exp. Qed.

(** ** C46: operations stay on the hyperboloid *)
Theorem C46_projx : forall d k x, 0 < k ->
  on_hyperboloid d k (project d k x) /\ (forall i, project d k x (S i) = x (S i)).
Proof. exact (fun d k x K => conj (project_on d k K x) (project_space d k x)). Qed.
Print Assumptions C46_projx.

Theorem C46_projx_fixes_points : forall d k x, 0 < k -> on_hyperboloid d k x -> project d k x = x.
Proof. exact (fun d k x K => project_fix d k x). Qed.
Print Assumptions C46_projx_fixes_points.

Theorem C46_proju_tangent : forall d k x v, 0 < k -> on_hyperboloid d k x -> tangent d x (project_u d k x v).
Proof. exact (fun d k x v K => proju_tangent d k K x v). Qed.
Print Assumptions C46_proju_tangent.

Theorem C46_proju_fixes_tangent : forall d k x v, tangent d x v -> project_u d k x v = v.
Proof. exact (fun d k x v => proju_fix d k x v). Qed.
Print Assumptions C46_proju_fixes_tangent.

(** proju is the orthogonal projection for the Minkowski form. *)
Theorem C46_proju_orthogonal : forall d k x v w, tangent d x w ->
  minkowski d (project_u d k x v) w = minkowski d v w.
Proof. exact (proju_orth). Qed.
Print Assumptions C46_proju_orthogonal.

(** With the default flags expmap lands on the hyperboloid for every point and vector. *)
Theorem C46_expmap : forall d k x u norm_tan, 0 < k -> on_hyperboloid d k (l_expmap d k norm_tan true x u).
Proof. exact (fun d k x u nt K => l_exp_on d k K x u nt). Qed.
Print Assumptions C46_expmap.

(** The formula itself does so too, without the final projection, for tangent
    vectors longer than the 1e-4 floor of norm. *)
Theorem C46_expmap_formula : forall d k x u, 0 < k -> on_hyperboloid d k x -> tangent d x u ->
  / 10 ^ 8 <= minkowski d u u -> on_hyperboloid d k (expmap d k x u).
Proof. exact (fun d k x u K X T R => exp_on d k K x u X T R). Qed.
Print Assumptions C46_expmap_formula.

Theorem C46_expmap0 : forall d k u, 0 < k -> on_hyperboloid d k (l_expmap0 d k true u).
Proof. exact (fun d k u K => project_on d k K (expmap0 d k u)). Qed.
Print Assumptions C46_expmap0.

Theorem C46_geodesic_unit : forall d k t x u proj, 0 < k -> on_hyperboloid d k x -> tangent d x u ->
  minkowski d u u = 1 -> on_hyperboloid d k (l_geodesic_unit d k proj t x u).
Proof. exact (fun d k t x u pr K X T U => eq_ind_r (on_hyperboloid d k) (geo_on d k K x u t X T U) (geo_project d k K x u t X T U pr)). Qed.
Print Assumptions C46_geodesic_unit.

Theorem C46_origin : forall d k, 0 < k -> on_hyperboloid d k (origin k).
Proof. exact (origin_on). Qed.
Print Assumptions C46_origin.

(** expmap(x, 0) is x only at the origin: the norm of the zero vector is 1e-4. *)
Theorem C46_expmap_zero : forall d k x norm_tan, 0 < k -> on_hyperboloid d k x ->
  ((forall i, (i <= d)%nat -> l_expmap d k norm_tan true x vzero i = x i)
   <-> (forall i, (i <= d)%nat -> x i = origin k i)).
Proof. exact (fun d k x nt K X => exp_zero_iff d k K x nt X). Qed.
Print Assumptions C46_expmap_zero.

Theorem C46_expmap_zero_refuted : forall norm_tan, on_hyperboloid 2 1 pt /\ l_expmap 2 1 norm_tan true pt vzero 1%nat <> pt 1%nat.
Proof. exact (fun nt => conj (proj1 ex_hyp) (exp_zero_moves nt)). Qed.
Print Assumptions C46_expmap_zero_refuted.

(** ** C47: exp, log, dist and transport agree *)
Theorem C47_dist_is_hyperbolic : forall d k x y, 0 < k -> on_hyperboloid d k x -> on_hyperboloid d k y ->
  / 10 ^ 15 <= hyp_cos d k x y ^ 2 - 1 ->
  0 < dist d k x y /\ cosh (dist d k x y / sqrt k) = hyp_cos d k x y.
Proof. exact (dist_cosh). Qed.
Print Assumptions C47_dist_is_hyperbolic.

Theorem C47_logmap_tangent : forall d k x y, 0 < k -> on_hyperboloid d k x -> tangent d x (logmap d k x y).
Proof. exact (fun d k x y K => log_tangent d k K x y). Qed.
Print Assumptions C47_logmap_tangent.

Theorem C47_logmap_norm : forall d k x y, 0 < k -> on_hyperboloid d k x -> on_hyperboloid d k y ->
  apart d k x y -> minkowski d (logmap d k x y) (logmap d k x y) = dist d k x y ^ 2.
Proof. exact (fun d k x y K => log_norm d k K x y). Qed.
Print Assumptions C47_logmap_norm.

Theorem C47_expmap_logmap : forall d k x y norm_tan proj, 0 < k -> on_hyperboloid d k x -> on_hyperboloid d k y ->
  apart d k x y -> / 10 ^ 8 <= dist d k x y ^ 2 ->
  forall i, l_expmap d k norm_tan proj x (logmap d k x y) i = y i.
Proof. exact (fun d k x y nt pr K => exp_log d k K x y nt pr). Qed.
Print Assumptions C47_expmap_logmap.

Theorem C47_logmap_expmap : forall d k x u norm_tan proj, 0 < k -> on_hyperboloid d k x -> tangent d x u ->
  / 10 ^ 8 <= minkowski d u u -> / 10 ^ 15 * k <= minkowski d u u ->
  logmap d k x (l_expmap d k norm_tan proj x u) = u.
Proof. exact (fun d k x u nt pr K => log_exp d k K x u nt pr). Qed.
Print Assumptions C47_logmap_expmap.

Theorem C47_expmap_distance : forall d k x u, 0 < k -> on_hyperboloid d k x -> tangent d x u ->
  / 10 ^ 8 <= minkowski d u u -> / 10 ^ 15 * k <= minkowski d u u ->
  dist d k x (expmap d k x u) = sqrt (minkowski d u u).
Proof. exact (fun d k x u K => exp_dist d k K x u). Qed.
Print Assumptions C47_expmap_distance.

Theorem C47_transport_tangent : forall d k x y v, 0 < k -> on_hyperboloid d k x -> on_hyperboloid d k y ->
  tangent d x v -> / 10 ^ 8 <= k * (hyp_cos d k x y ^ 2 - 1) -> tangent d y (parallel_transport d k x y v).
Proof. exact (fun d k x y v K => transp_tangent d k K x y v). Qed.
Print Assumptions C47_transport_tangent.

Theorem C47_transport_isometry : forall d k x y v w, 0 < k -> on_hyperboloid d k x -> on_hyperboloid d k y ->
  tangent d x v -> tangent d x w -> / 10 ^ 8 <= k * (hyp_cos d k x y ^ 2 - 1) ->
  minkowski d (parallel_transport d k x y v) (parallel_transport d k x y w) = minkowski d v w.
Proof. exact (fun d k x y v w K => transp_isometry d k K x y v w). Qed.
Print Assumptions C47_transport_isometry.

(** The velocity of the geodesic is transported to its velocity at the other end. *)
Theorem C47_transport_velocity : forall d k x y, 0 < k -> on_hyperboloid d k x -> on_hyperboloid d k y ->
  / 10 ^ 8 <= k * (hyp_cos d k x y ^ 2 - 1) ->
  parallel_transport d k x y (logmap d k x y) = smul (-1) (logmap d k y x).
Proof. exact (fun d k x y K => transp_velocity d k K x y). Qed.
Print Assumptions C47_transport_velocity.

Theorem C47_transport_self : forall d k x v, 0 < k -> on_hyperboloid d k x -> tangent d x v ->
  parallel_transport d k x x v = v.
Proof. exact (fun d k x v K => transp_self d k K x v). Qed.
Print Assumptions C47_transport_self.

(** transp_follow_expmap(x, u, v): tangent where expmap arrives, inner products kept. *)
Theorem C47_follow_expmap : forall d k x u v w proj, 0 < k -> on_hyperboloid d k x -> tangent d x u -> tangent d x v -> tangent d x w ->
  / 10 ^ 8 <= minkowski d u u -> let y := l_expmap d k true proj x u in
  tangent d y (transp_follow_expmap d k proj x u v) /\
  minkowski d (transp_follow_expmap d k proj x u v) (transp_follow_expmap d k proj x u w) = minkowski d v w.
Proof. exact (follow_expmap). Qed.
Print Assumptions C47_follow_expmap.

Theorem C47_origin_versions : forall d k x u v, 0 < k ->
  inner0 k v = inner d (origin k) v /\ dist0 k x = dist d k (origin k) x /\
  expmap0 d k u = expmap d k (origin k) u /\ logmap0 d k x = logmap d k (origin k) x /\
  logmap0back d k x = logmap d k x (origin k) /\
  parallel_transport0 d k x v = parallel_transport d k (origin k) x v /\
  parallel_transport0back d k x v = parallel_transport d k x (origin k) v.
Proof. exact (origin_versions). Qed.
Print Assumptions C47_origin_versions.

Theorem C47_geodesic_unit_speed : forall d k x u s t, 0 < k -> on_hyperboloid d k x -> tangent d x u ->
  minkowski d u u = 1 -> / 10 ^ 15 * k <= (s - t) ^ 2 ->
  dist d k (geodesic_unit k s x u) (geodesic_unit k t x u) = Rabs (s - t).
Proof. exact (fun d k x u s t K => geo_dist d k K x u s t). Qed.
Print Assumptions C47_geodesic_unit_speed.

Theorem C47_geodesic_unit_is_expmap : forall d k x u t, 0 < k -> on_hyperboloid d k x -> tangent d x u ->
  minkowski d u u = 1 -> 0 < t -> / 10 ^ 8 <= t ^ 2 -> geodesic_unit k t x u = expmap d k x (smul t u).
Proof. exact (fun d k x u t K => geo_exp d k x u t). Qed.
Print Assumptions C47_geodesic_unit_is_expmap.

(** ** C48: gradient conversion *)
Theorem C48_is_gradient : forall d k x g, 0 < k -> on_hyperboloid d k x ->
  tangent d x (snd (egrad2rgrad d k x g)) /\
  (forall v, tangent d x v -> minkowski d (snd (egrad2rgrad d k x g)) v = pairing d g v).
Proof. exact (fun d k x g K X => conj (rgrad_tangent d k K x g X) (rgrad_gradient d k x g)). Qed.
Print Assumptions C48_is_gradient.

Theorem C48_argument_changed_refuted : forall d k x g, g O <> 0 -> fst (egrad2rgrad d k x g) <> g.
Proof. exact (fun d k x g => grad_mutates x g d k). Qed.
Print Assumptions C48_argument_changed_refuted.

(** Exactly when a second call on the same tensor gives the same answer. *)
Theorem C48_second_call : forall d k x g, 0 < k -> on_hyperboloid d k x ->
  ((forall i, (i <= d)%nat -> snd (egrad2rgrad d k x (fst (egrad2rgrad d k x g))) i = snd (egrad2rgrad d k x g) i)
   <-> g O = 0 \/ (forall i, (i < d)%nat -> x (S i) = 0)).
Proof. exact (fun d k x g K => calls_agree d k K x g). Qed.
Print Assumptions C48_second_call.

Theorem C48_second_call_refuted : exists i, (i <= 2)%nat /\
  snd (egrad2rgrad 2 1 pt (fst (egrad2rgrad 2 1 pt (fun _ => 1)))) i <> snd (egrad2rgrad 2 1 pt (fun _ => 1)) i.
Proof. exact (grad_twice). Qed.
Print Assumptions C48_second_call_refuted.

(** ** C49: polar coordinates and ball conversions *)
Theorem C49_polar : forall d k x, 0 < k -> dot d x x = 1 -> (on_hyperboloid d k (project_polar d k x) <-> k = 1).
Proof. exact (fun d k x K => polar_iff d k K x). Qed.
Print Assumptions C49_polar.

Example C49_polar_case : dot 2 (fun i => match i with O => 3 / 5 | 1%nat => 4 / 5 | _ => 7 end) (fun i => match i with O => 3 / 5 | 1%nat => 4 / 5 | _ => 7 end) = 1.
Proof. exact (ex_polar). Qed.

Theorem C49_to_ball : forall d k x, 0 < k -> on_hyperboloid d k x ->
  dot d (lorentz_to_poincare k x) (lorentz_to_poincare k x) < 1.
Proof. exact (fun d k x K => l2p_ball d k K x). Qed.
Print Assumptions C49_to_ball.

Theorem C49_to_hyperboloid : forall d k eps p, 0 < k -> 0 <= eps -> dot d p p < 1 ->
  (on_hyperboloid d k (poincare_to_lorentz d k eps p) <-> eps = 0).
Proof. exact (fun d k eps p K => p2l_iff d k K eps p). Qed.
Print Assumptions C49_to_hyperboloid.

Theorem C49_ball_round_trip : forall d k eps p, 0 < k -> 0 <= eps -> dot d p p < 1 ->
  lorentz_to_poincare k (poincare_to_lorentz d k eps p) = vdiv p (1 + eps / 2).
Proof. exact (fun d k eps p K => l2p_p2l d k K eps p). Qed.
Print Assumptions C49_ball_round_trip.

Theorem C49_hyperboloid_round_trip : forall d k eps x, 0 < k -> 0 <= eps -> on_hyperboloid d k x ->
  poincare_to_lorentz d k eps (lorentz_to_poincare k x) = vdiv x (1 + eps * (x O + sqrt k) / (2 * sqrt k)).
Proof. exact (fun d k eps x K => p2l_l2p d k K eps x). Qed.
Print Assumptions C49_hyperboloid_round_trip.

(** With eps = 0 the conversion turns the ball's distance into the hyperboloid's. *)
Theorem C49_isometry : forall d k p q, 0 < k -> dot d p p < 1 -> dot d q q < 1 ->
  hyp_cos d k (poincare_to_lorentz d k 0 p) (poincare_to_lorentz d k 0 q) =
  1 + 2 * dot d (vsub p q) (vsub p q) / ((1 - dot d p p) * (1 - dot d q q)).
Proof. exact (fun d k p q K => ball_hc d k K p q). Qed.
Print Assumptions C49_isometry.

Example C49_ball_case : dot 2 (fun i => match i with O => 1 / 2 | 1%nat => 1 / 2 | _ => 7 end) (fun i => match i with O => 1 / 2 | 1%nat => 1 / 2 | _ => 7 end) < 1.
Proof. exact (ex_ball). Qed.

(** lorentz_to_poincare reads space and time along the same axis only for matrices. *)
Theorem C49_axes : forall rank, (1 <= rank)%nat ->
  (fst (narrowed_axes rank (-1)) = snd (narrowed_axes rank (-1)) <-> rank = 2%nat).
Proof. exact (axes_agree). Qed.
Print Assumptions C49_axes.

Theorem C49_vector_refuted : snd (narrowed_axes 1 (-1)) = None.
Proof. exact (axes_vector). Qed.
Print Assumptions C49_vector_refuted.

(** ** C32: the membership check *)
Theorem C32_lorentz_check : forall d k atol rtol x, 0 < k ->
  (check_point d k atol rtol x <-> Rabs (minkowski d x x + k) <= atol + rtol * k).
Proof. exact (fun d k a r x K => checkE d k K a r x). Qed.
Print Assumptions C32_lorentz_check.

Theorem C32_lorentz_upper_sheet : forall d k x, 0 < k -> 0 < x O ->
  (check_point d k 0 0 x <-> on_hyperboloid d k x).
Proof. exact (fun d k x K => check_exact d k K x). Qed.
Print Assumptions C32_lorentz_upper_sheet.

Theorem C32_lorentz_refuted : forall d k atol rtol, 0 < k -> 0 <= atol -> 0 <= rtol ->
  check_point d k atol rtol (vopp (origin k)) /\ ~ on_hyperboloid d k (vopp (origin k)).
Proof. exact (lower_sheet). Qed.
Print Assumptions C32_lorentz_refuted.

Theorem C32_lorentz_vector : forall d atol rtol x u,
  (check_vector d atol rtol x u <-> Rabs (minkowski d x u) <= atol).
Proof. exact (check_vectorE). Qed.
Print Assumptions C32_lorentz_vector.

(** ** C81: Lorentz.random_normal *)
Theorem C81_on_hyperboloid : forall d k mean std draw, 0 < k -> on_hyperboloid d k (random_normal d k mean std draw).
Proof. exact (fun d k m s z K => random_on d k K m s z). Qed.
Print Assumptions C81_on_hyperboloid.

Theorem C81_std_ignored : forall d k std draw, 0 < k -> 0 < std -> random_normal d k 0 std draw = random_normal d k 0 1 draw.
Proof. exact (fun d k s z _ => random_std d k z s). Qed.
Print Assumptions C81_std_ignored.

(** No draw, mean or std moves a sample further than 1 from the origin. *)
Theorem C81_bounded : forall d k mean std draw, 0 < k -> / 10 ^ 15 * k <= 1 ->
  nrm (S d) (fun i => draw i * std + mean) <> 0 ->
  dist d k (origin k) (random_normal d k mean std draw) <= 1.
Proof. exact (fun d k m s z K => random_dist d k K m s z). Qed.
Print Assumptions C81_bounded.

(** ** C82: Lorentz.dist *)
Theorem C82_symmetric : forall d k x y, dist d k x y = dist d k y x.
Proof. exact (dist_sym). Qed.
Print Assumptions C82_symmetric.

Theorem C82_triangle : forall d k x y z, 0 < k -> on_hyperboloid d k x -> on_hyperboloid d k y -> on_hyperboloid d k z ->
  dist d k x z <= dist d k x y + dist d k y z.
Proof. exact (fun d k x y z K => dist_triangle d k K x y z). Qed.
Print Assumptions C82_triangle.

(** dist(x, y) takes its smallest value exactly when x and y coincide... *)
Theorem C82_minimum : forall d k x y, 0 < k -> on_hyperboloid d k x -> on_hyperboloid d k y ->
  dist d k x x <= dist d k x y /\ (dist d k x y = dist d k x x <-> forall i, (i <= d)%nat -> x i = y i).
Proof. exact (fun d k x y K => dist_floor d k K x y). Qed.
Print Assumptions C82_minimum.

(** ...but that value is not 0. *)
Theorem C82_self_refuted : forall d k x, 0 < k -> on_hyperboloid d k x ->
  dist d k x x = sqrt k * ln (1 + sqrt (/ 10 ^ 15)) /\ 0 < dist d k x x.
Proof. exact (fun d k x K X => conj (dist_self d k K x X) (dist_pos d k K x x X X)). Qed.
Print Assumptions C82_self_refuted.

