(** C135: a step of the optimizers with a small learning rate decreases the loss. *)
From Coq Require Import Reals List Arith.
From Verif Require Import RVec OptimModel OptimSpec OptimInstances OptimDescentSpec OptimDescentProofs OptimDescentProofs2.
From Verif Require SphereSpec StereoModel.
Import ListNotations.
Local Open Scope R_scope.

(** RiemannianSGD without momentum, any number of parameters on different manifolds (some of
    which may have no gradient), any state and step count: the loss after the step is smaller. *)
Theorem C135_sgd : forall h, momentum h <= 0 -> weight_decay h = 0 ->
  forall (L : list vec -> R) ns k (ps : list sgd_param), stabilize h = None ->
  Forall2 ready ns ps -> some_gradient ns ps -> jointly_differentiable L ns (map val ps) (map grad_of ps) ->
  exists t0, 0 < t0 /\ forall t, 0 < t < t0 ->
    L (map val (params (fst (sgd_step_group {| hyp := sgd_rate t h; steps := k; params := ps |})))) < L (map val ps).
Proof. exact sgd_descent. Qed.
Print Assumptions C135_sgd.

(** The first step of RiemannianAdam, with or without amsgrad. *)
Theorem C135_adam_first_step : forall h, 0 <= beta1 h < 1 -> 0 <= beta2 h < 1 -> 0 < eps h -> a_decay h = 0 ->
  forall (L : list vec -> R) ns (ps : list adam_param), a_stabilize h = None ->
  Forall fresh ps -> Forall2 ready ns ps -> some_gradient ns ps ->
  jointly_differentiable L ns (map val ps) (map grad_of ps) ->
  exists t0, 0 < t0 /\ forall t, 0 < t < t0 ->
    L (map val (a_params (fst (adam_step_group {| a_hyp := adam_rate t h; a_params := ps |})))) < L (map val ps).
Proof. exact adam_descent. Qed.
Print Assumptions C135_adam_first_step.

(** Plain tensors, the sphere, and the ball strictly inside the radius it projects to are such
    manifolds, for every gradient. *)
Theorem C135_euclidean : forall n x g, descent_at n euclidean eq x g.
Proof. exact euclidean_descent_at. Qed.
Print Assumptions C135_euclidean.
Theorem C135_sphere : forall n x g, SphereSpec.on_sphere n None x -> descent_at n (sphere n) (fun _ _ => True) x g.
Proof. exact sphere_descent_at. Qed.
Print Assumptions C135_sphere.
Theorem C135_ball : forall n k x g, nrm n x < StereoModel.maxnorm StereoModel.e15 (/ 10 ^ 5) k /\
    StereoModel.e15 <= StereoModel.maxnorm StereoModel.e15 (/ 10 ^ 5) k ->
  descent_at n (ball n k) (fun _ _ => True) x g.
Proof. exact ball_descent_at. Qed.
Print Assumptions C135_ball.

(** A parameter on the circle, one in the ball without gradient, and a plain tensor. *)
Example C135_hypotheses : jointly_differentiable linear_loss [2%nat; 2%nat; 1%nat] (map val (@three vec)) (map grad_of (@three vec)) /\
  Forall2 ready [2%nat; 2%nat; 1%nat] (@three vec) /\ some_gradient [2%nat; 2%nat; 1%nat] (@three vec) /\ Forall fresh (@three vec).
Proof. exact three_case. Qed.
