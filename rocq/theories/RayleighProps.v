(** Property theorems C147: training on the sphere with a quadratic loss finds an
    eigenvector of the smallest eigenvalue. *)
From Coq Require Import Reals List.
From Verif Require Import RVec OptimModel OptimInstances FixedSpec RayleighSpec RayleighInst.
From Verif Require SphereSpec.
Local Open Scope R_scope.

Theorem C147_rate : forall d m v b j gap spread h, eigenbasis d m v b -> isolated d b j gap spread ->
  plain_sgd h -> 0 < lr h -> 2 * lr h * spread <= 1 ->
  forall s p, man p = Some (sphere d) -> SphereSpec.on_sphere d None (val p) -> dot d (v j) (val p) <> 0 -> forall n t,
  exists y, gradient_run h s (quad_grad d m) p t n y /\ SphereSpec.on_sphere d None y /\
    nrm d (vsub y (nearer d (v j) (val p))) <= sqrt 2 * shrink (lr h) gap spread ^ n * tangent_of_angle d (v j) (val p).
Proof. exact quad_rate. Qed.
Print Assumptions C147_rate.
Theorem C147_limit : forall d m v b j gap spread h, eigenbasis d m v b -> isolated d b j gap spread ->
  plain_sgd h -> 0 < lr h -> 2 * lr h * spread <= 1 ->
  forall s p, man p = Some (sphere d) -> SphereSpec.on_sphere d None (val p) -> dot d (v j) (val p) <> 0 -> forall e, 0 < e ->
  exists N, forall n t, (N <= n)%nat -> exists y, gradient_run h s (quad_grad d m) p t n y /\ SphereSpec.on_sphere d None y /\
    nrm d (vsub y (nearer d (v j) (val p))) < e.
Proof. exact quad_limit. Qed.
Print Assumptions C147_limit.
Theorem C147_shrink : forall d b j gap spread h, isolated d b j gap spread -> 0 < lr h -> 0 <= shrink (lr h) gap spread < 1.
Proof. exact shrink_range. Qed.
Print Assumptions C147_shrink.
Theorem C147_minimiser : forall d m v b j gap spread, eigenbasis d m v b -> isolated d b j gap spread ->
  forall y, SphereSpec.on_sphere d None y -> dot d (v j) (mat_vec d m (v j)) <= dot d y (mat_vec d m y).
Proof. exact quad_best. Qed.
Print Assumptions C147_minimiser.
(** The exception: starting points orthogonal to the eigenvector never get closer. *)
Theorem C147_orthogonal : forall d m v b j gap spread h, eigenbasis d m v b -> isolated d b j gap spread -> plain_sgd h ->
  forall s p, man p = Some (sphere d) -> SphereSpec.on_sphere d None (val p) -> dot d (v j) (val p) = 0 -> forall n t,
  exists y, gradient_run h s (quad_grad d m) p t n y /\ SphereSpec.on_sphere d None y /\ dot d (v j) y = 0.
Proof. exact quad_orthogonal. Qed.
Print Assumptions C147_orthogonal.
(** Case: the matrix diag(3, 1), starting at (4/5, 3/5), learning rate 1/4. *)
Example C147_case : eigenbasis 2 diag31 unit_vec eig31 /\ isolated 2 eig31 1 2 2 /\ plain_sgd h_ray /\ 0 < lr h_ray /\ 2 * lr h_ray * 2 <= 1 /\
  SphereSpec.on_sphere 2 None start /\ dot 2 (unit_vec 1) start <> 0.
Proof. exact ray_case. Qed.
