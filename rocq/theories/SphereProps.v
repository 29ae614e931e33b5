(** Properties C21-C24, C69, C70 and the sphere part of C32: Sphere and SphereExact.
    [n] is the size of the last axis, [P] the optional subspace projector,
    [eps] the dtype's EPS (1e-4 or 1e-7, both covered by 0 < eps <= 1/2). *)
From Coq Require Import Reals List.
From Verif Require Import RVec StereoSpec SphereModel SphereSpec SphereProofs SphereProofs2.
Import ListNotations.
Local Open Scope R_scope.

Example sphere_eps_values : 0 < EPS64 <= / 2 /\ 0 < EPS32 <= / 2.
Proof. exact eps_ok. Qed.

(** ** C21: operations stay on the sphere *)
Theorem C21_projx : forall n P x, valid_subspace n P ->
  nrm n (project_on_subspace n P x) <> 0 -> on_sphere n P (projx n P x).
Proof. exact (fun n P x V H => projx_on n P V x H). Qed.
Print Assumptions C21_projx.

Theorem C21_projx_fixes_points : forall n P x, valid_subspace n P -> on_sphere n P x ->
  same n (projx n P x) x.
Proof. exact (fun n P x V H => projx_fix n P x H). Qed.
Print Assumptions C21_projx_fixes_points.

Theorem C21_random : forall n P draw, valid_subspace n P ->
  nrm n (project_on_subspace n P draw) <> 0 -> on_sphere n P (random_uniform n P draw).
Proof. exact (fun n P x V H => projx_on n P V x H). Qed.
Print Assumptions C21_random.

Theorem C21_retr : forall n P x u, valid_subspace n P ->
  on_sphere n P x -> tangent n P x u -> on_sphere n P (retr n P x u).
Proof. exact (fun n P x u V => retr_on n P V x u). Qed.
Print Assumptions C21_retr.

(** The retraction is the point of the sphere on the ray through x + u. *)
Theorem C21_retr_formula : forall n P x u, valid_subspace n P ->
  on_sphere n P x -> tangent n P x u ->
  same n (retr n P x u) (smul (/ sqrt (1 + dot n u u)) (vadd x u)).
Proof. exact (fun n P x u V => retr_formula n P x u). Qed.
Print Assumptions C21_retr_formula.

Theorem C21_expmap : forall n P eps x u, valid_subspace n P -> 0 <= eps ->
  on_sphere n P x -> tangent n P x u -> on_sphere n P (expmap n P eps x u).
Proof. exact (fun n P eps x u V => expmap_on n P V eps x u). Qed.
Print Assumptions C21_expmap.

Example C21_case : on_sphere 2 None (c2 1 0) /\ tangent 2 None (c2 1 0) (c2 0 1)
  /\ on_sphere 2 None (c2 (3/5) (4/5)) /\ Rabs (dot 2 (c2 1 0) (c2 (3/5) (4/5))) <= 1 - EPS64.
Proof. exact (ex_sphere). Qed.

Example C21_subspace_case : valid_subspace 3 (Some (projector_intersection 2 Qdef)) /\
  on_sphere 3 (Some (projector_intersection 2 Qdef)) e1v.
Proof. exact (ex_valid). Qed.

(** ** C22: tangent projection and Riemannian gradient *)
Theorem C22_linear : forall n P x a u b v,
  proju n P x (vadd (smul a u) (smul b v)) = vadd (smul a (proju n P x u)) (smul b (proju n P x v)).
Proof. exact (proju_lin). Qed.
Print Assumptions C22_linear.

Theorem C22_tangent : forall n P x u, valid_subspace n P -> on_sphere n P x ->
  tangent n P x (proju n P x u).
Proof. exact (fun n P x u V => proju_tan n P V x u). Qed.
Print Assumptions C22_tangent.

Theorem C22_fixes_tangent : forall n P x u, valid_subspace n P -> tangent n P x u ->
  same n (proju n P x u) u.
Proof. exact (fun n P x u V => proju_fix n P x u). Qed.
Print Assumptions C22_fixes_tangent.

Theorem C22_self_adjoint : forall n P x u v, valid_subspace n P -> on_sphere n P x ->
  inner n x (proju n P x u) v = inner n x u (proju n P x v).
Proof. exact (fun n P x u v V => proju_adj n P V x u v). Qed.
Print Assumptions C22_self_adjoint.

Theorem C22_gradient : forall n P x g v, valid_subspace n P -> tangent n P x v ->
  inner n x (egrad2rgrad n P x g) v = dot n g v.
Proof. exact (fun n P x g v V => proju_pair n P V x g v). Qed.
Print Assumptions C22_gradient.

Theorem C22_transport_tangent : forall n P x y v, valid_subspace n P -> on_sphere n P y ->
  tangent n P y (transp n P x y v).
Proof. exact (fun n P x y v V => proju_tan n P V y v). Qed.
Print Assumptions C22_transport_tangent.

(** ** C23: exp, log, dist *)
Theorem C23_log_tangent : forall n P eps x y, valid_subspace n P -> 0 < eps <= / 2 ->
  on_sphere n P x -> on_sphere n P y -> Rabs (dot n x y) <= 1 - eps ->
  tangent n P x (logmap n P eps x y).
Proof. intros; eapply log_tan; eassumption. Qed.
Print Assumptions C23_log_tangent.

Theorem C23_log_norm : forall n P eps x y, valid_subspace n P -> 0 < eps <= / 2 ->
  on_sphere n P x -> on_sphere n P y -> Rabs (dot n x y) <= 1 - eps ->
  nrm n (logmap n P eps x y) = dist n eps x y.
Proof. intros; eapply log_norm; eassumption. Qed.
Print Assumptions C23_log_norm.

Theorem C23_exp_log : forall n P eps x y, valid_subspace n P -> 0 < eps <= / 2 ->
  on_sphere n P x -> on_sphere n P y -> Rabs (dot n x y) <= 1 - eps ->
  same n (expmap n P eps x (logmap n P eps x y)) y.
Proof. intros; eapply exp_log; eassumption. Qed.
Print Assumptions C23_exp_log.

Theorem C23_log_exp : forall n P eps x u, valid_subspace n P -> 0 < eps <= / 2 ->
  on_sphere n P x -> tangent n P x u -> eps < nrm n u < PI -> Rabs (cos (nrm n u)) <= 1 - eps ->
  same n (logmap n P eps x (expmap n P eps x u)) u.
Proof. intros; eapply log_exp; eassumption. Qed.
Print Assumptions C23_log_exp.

Example C23_log_exp_case : on_sphere 2 None (c2 1 0) /\ tangent 2 None (c2 1 0) (c2 0 (PI/2)) /\
  EPS64 < nrm 2 (c2 0 (PI/2)) < PI /\ Rabs (cos (nrm 2 (c2 0 (PI/2)))) <= 1 - EPS64.
Proof. exact (ex_log_exp). Qed.

Theorem C23_dist_exp : forall n P eps x u, valid_subspace n P -> 0 < eps <= / 2 ->
  on_sphere n P x -> tangent n P x u -> eps < nrm n u < PI -> Rabs (cos (nrm n u)) <= 1 - eps ->
  dist n eps x (expmap n P eps x u) = nrm n u.
Proof. intros; eapply dist_exp; eassumption. Qed.
Print Assumptions C23_dist_exp.

Theorem C23_dist_is_angle : forall n eps x y, 0 < eps <= / 2 -> dot n x x = 1 -> dot n y y = 1 ->
  dist n eps x y = Rmin (Rmax (acos (dot n x y)) (acos (1 - eps))) (PI - acos (1 - eps)).
Proof. intros; eapply dist_clamped; eassumption. Qed.
Print Assumptions C23_dist_is_angle.

Theorem C23_dist_symmetric : forall n eps x y, dist n eps x y = dist n eps y x.
Proof. exact (dist_sym). Qed.
Print Assumptions C23_dist_symmetric.

Theorem C23_dist_bounds : forall n eps x y, 0 < eps <= / 2 -> eps < dist n eps x y <= PI.
Proof. exact (fun n eps x y H => conj (dist_gt_eps n eps H x y) (proj2 (acos_bound _))). Qed.
Print Assumptions C23_dist_bounds.

Theorem C23_dist_triangle : forall n eps x y z, 0 < eps <= / 2 ->
  dot n x x = 1 -> dot n y y = 1 -> dot n z z = 1 ->
  dist n eps x z <= dist n eps x y + dist n eps y z.
Proof. intros; eapply dist_triangle; eassumption. Qed.
Print Assumptions C23_dist_triangle.

Theorem C23_dist_orthogonal_invariant : forall n eps f x y,
  (forall u v, dot n (f u) (f v) = dot n u v) -> dist n eps (f x) (f y) = dist n eps x y.
Proof. exact (dist_iso). Qed.
Print Assumptions C23_dist_orthogonal_invariant.

(** dist(x, x) = 0 is false at every point. *)
Theorem C23_dist_self_refuted : forall n eps x, 0 < eps <= / 2 -> dist n eps x x <> 0.
Proof. exact (fun n eps x H => dist_self n eps H x). Qed.
Print Assumptions C23_dist_self_refuted.

(** ** C24: shape validation *)
Theorem C24_no_subspace : forall shape,
  (fst (check_shape None shape) = true <-> (1 <= length shape)%nat /\ last shape 0%nat <> 1%nat) /\
  (fst (check_shape None shape) = true <-> snd (check_shape None shape) = None).
Proof. exact (fun shape => conj (shape_plain shape) (shape_plain_reason shape)). Qed.
Print Assumptions C24_no_subspace.

(** With a projector of shape batch + [n; m] only the last size is looked at:
    shapes with fewer dimensions than the projector's batch are accepted. *)
Theorem C24_too_few_dims_refuted : forall batch n m shape,
  fst (check_shape (Some (batch ++ [n; m])) shape) = true
  <-> (1 <= length shape)%nat /\ last shape 0%nat = n.
Proof. exact (shape_sub_accepts). Qed.
Print Assumptions C24_too_few_dims_refuted.

(** Every shape that does have enough dimensions is accepted with a failure reason attached. *)
Theorem C24_stale_reason_refuted : forall batch n m shape,
  (length batch + 1 <= length shape)%nat -> last shape 0%nat = n ->
  check_shape (Some (batch ++ [n; m])) shape = (true, Some BatchDims).
Proof. exact (shape_sub_reason). Qed.
Print Assumptions C24_stale_reason_refuted.

(** ** C32 (sphere): with zero tolerance check_point accepts exactly the sphere *)
Theorem C32_sphere_point : forall n P x, check_point n P 0 0 x = true <-> on_sphere n P x.
Proof. exact (check_point_exact). Qed.
Print Assumptions C32_sphere_point.

(** ** C69: the subspace is the one asked for *)
Theorem C69_intersection : forall n K A Q R Ri, qr_of n K A Q R ->
  (forall a b, (a < K)%nat -> (b < K)%nat ->
     Rsum K (fun c => R a c * Ri c b) = if Nat.eqb a b then 1 else 0) ->
  valid_subspace n (Some (projector_intersection K Q)) /\
  forall x, in_subspace n (Some (projector_intersection K Q)) x <-> in_span n K A x.
Proof. exact (fun n K A Q R Ri H HI => conj (inter_proj n K Q (proj1 H))
    (fun x => iff_trans (inter_space n K Q (proj1 H) x) (qr_span n K A Q R Ri H HI x))). Qed.
Print Assumptions C69_intersection.

Theorem C69_complement : forall n K Q, orthonormal n K Q ->
  valid_subspace n (Some (projector_complement K Q)) /\
  forall x, in_subspace n (Some (projector_complement K Q)) x <-> orthogonal_to n K Q x.
Proof. exact (fun n K Q H => conj (compl_proj n K Q H) (compl_space n K Q H)). Qed.
Print Assumptions C69_complement.

(** A rank-deficient argument silently gives a larger subspace. *)
Theorem C69_rank_deficient_refuted : qr_of 3 2 Adef Qdef Rdef /\
  on_sphere 3 (Some (projector_intersection 2 Qdef)) e1v /\ ~ in_span 3 2 Adef e1v.
Proof. exact (rank_deficient). Qed.
Print Assumptions C69_rank_deficient_refuted.

(** ** C70: the tangent check *)
Theorem C70_tangent_check : forall n x u, check_vector n 0 0 x u = true <-> dot n x u = 0.
Proof. exact (check_vector_iff). Qed.
Print Assumptions C70_tangent_check.

(** The subspace is not checked: a vector leaving it passes. *)
Theorem C70_subspace_unchecked_refuted : exists x u,
  on_sphere 3 (Some (projector_intersection 2 Qdef)) x /\
  check_vector 3 0 0 x u = true /\
  ~ tangent 3 (Some (projector_intersection 2 Qdef)) x u.
Proof. exact (check_vector_weak). Qed.
Print Assumptions C70_subspace_unchecked_refuted.

