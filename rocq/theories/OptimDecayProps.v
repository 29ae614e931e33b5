(** C134: what weight decay does on each manifold. *)
From Coq Require Import Reals List Arith.
From Verif Require Import RVec OptimModel OptimSpec OptimInstances OptimDecaySpec OptimDecayProofs.
From Verif Require SphereSpec LorentzSpec StereoModel.
Import ListNotations.
Local Open Scope R_scope.

(** Where the Riemannian gradient does not see multiples of the point, training with any
    schedule of weight decays visits the points visited without it: RiemannianSGD without
    momentum and RiemannianAdam, any number of parameters, any gradients. *)
Theorem C134_sgd_training : forall (on : manifold -> vec -> Prop) (tan : manifold -> vec -> vec -> Prop) hs wd G ps,
  (forall t, momentum (hs t) <= 0) ->
  Forall (fun p : sgd_param => lawful (manifold_of p) (on (manifold_of p)) (tan (manifold_of p)) /\
    radially_blind (manifold_of p) (on (manifold_of p)) /\ on (manifold_of p) (val p) /\ fresh p) ps -> forall t,
  map val (params (sgd_training (fun t => sgd_decay (wd t) (hs t)) G ps t)) = map val (params (sgd_training hs G ps t)).
Proof. exact sgd_blind. Qed.
Print Assumptions C134_sgd_training.

Theorem C134_adam_training : forall (on : manifold -> vec -> Prop) (tan : manifold -> vec -> vec -> Prop)
  (blk : manifold -> nat -> nat -> Prop) hs wd G ps,
  (forall t, 0 <= beta1 (hs t) < 1 /\ 0 <= beta2 (hs t) < 1 /\ 0 < eps (hs t)) ->
  Forall (fun p : adam_param => lawful (manifold_of p) (on (manifold_of p)) (tan (manifold_of p)) /\
    blocked (manifold_of p) (on (manifold_of p)) (tan (manifold_of p)) (blk (manifold_of p)) /\
    radially_blind (manifold_of p) (on (manifold_of p)) /\ on (manifold_of p) (val p) /\ fresh p) ps -> forall t,
  map val (a_params (adam_training (fun t => adam_decay (wd t) (hs t)) G ps t)) = map val (a_params (adam_training hs G ps t)).
Proof. exact adam_blind. Qed.
Print Assumptions C134_adam_training.

(** With momentum, as long as the points stay on the manifold. *)
Theorem C134_momentum_training : forall (on : manifold -> vec -> Prop) hs wd G ps,
  (forall t, Forall (fun p : sgd_param => radially_blind (manifold_of p) (on (manifold_of p)) /\ on (manifold_of p) (val p))
                    (params (sgd_training hs G ps t))) -> forall t,
  map val (params (sgd_training (fun t => sgd_decay (wd t) (hs t)) G ps t)) = map val (params (sgd_training hs G ps t)).
Proof. exact sgd_training_values. Qed.
Print Assumptions C134_momentum_training.

(** The sphere is such a manifold ... *)
Theorem C134_sphere : forall n, radially_blind (sphere n) (SphereSpec.on_sphere n None).
Proof. exact sphere_blind. Qed.
Print Assumptions C134_sphere.

(** ... Euclidean space, the Poincare ball and the hyperboloid are not: without a gradient
    the point moves towards the origin. *)
Theorem C134_euclidean_not_blind : ~ radially_blind euclidean (fun _ => True).
Proof. exact euclidean_not_blind. Qed.
Print Assumptions C134_euclidean_not_blind.

Theorem C134_ball : forall n k h x, momentum h <= 0 ->
  val (fst (sgd_update h {| man := Some (ball n k); val := x; grad := Dense vzero; state := None |})) =
  StereoModel.project n StereoModel.e15 (/ 10 ^ 5) k
    (smul (1 - lr h * weight_decay h / StereoModel.lambda_x n k x ^ 2) x).
Proof. exact ball_decay. Qed.
Print Assumptions C134_ball.

Theorem C134_lorentz : forall d k x g a, LorentzSpec.on_hyperboloid d k x -> 0 < k -> forall i,
  egrad2rgrad (lorentz d k) x (vadd g (smul a x)) i =
  egrad2rgrad (lorentz d k) x g i + 2 * a / k * x i * (match i with O => x O ^ 2 - k | S _ => x O ^ 2 end).
Proof. exact lorentz_decay. Qed.
Print Assumptions C134_lorentz.

(** A case meeting the hypotheses: the north pole of the circle. *)
Example C134_hypotheses : (forall t : nat, momentum half_decay <= 0) /\
  Forall (fun p : sgd_param => lawful (manifold_of p) (SphereSpec.on_sphere 2 None) (SphereSpec.tangent 2 None) /\
    blocked (manifold_of p) (SphereSpec.on_sphere 2 None) (SphereSpec.tangent 2 None) (fun _ _ => True) /\
    radially_blind (manifold_of p) (SphereSpec.on_sphere 2 None) /\ SphereSpec.on_sphere 2 None (val p) /\ fresh p) [on_globe].
Proof. exact globe_ok. Qed.
