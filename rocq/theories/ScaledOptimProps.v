(** C137: optimizing on Scaled(M, s) is optimizing on M with the learning rate divided by s. *)
From Coq Require Import Reals List.
From Verif Require Import RVec OptimModel OptimDecaySpec OptimDescentSpec OptimInstances ScaledOptimModel ScaledOptimProofs.
Import ListNotations.
Local Open Scope R_scope.

(** RiemannianSGD: any number of parameters on any manifolds, any gradient oracle, any schedule
    of hyper-parameters (momentum, Nesterov, weight decay, stabilisation). *)
Theorem C137_sgd : forall s inner hs G ps t, Forall (fun p => man p <> None) ps ->
  map val (params (sgd_training hs G (map (on_scaled s inner) ps) t)) =
  map val (params (sgd_training (fun t => sgd_rate (lr (hs t) / s) (hs t)) G ps t)).
Proof. exact sgd_scaled. Qed.
Print Assumptions C137_sgd.

(** RiemannianAdam, for the manifolds whose component_inner is the one of class Manifold (all
    but Euclidean and ProductManifold). *)
Theorem C137_adam : forall s inner hs G ps t,
  Forall (fun p => exists M, man p = Some M /\ forall x u, component_inner M x u = vconst (inner M x u)) ps ->
  map val (a_params (adam_training hs G (map (on_scaled s inner) ps) t)) =
  map val (a_params (adam_training (fun t => adam_rate (a_lr (hs t) / s) (hs t)) G ps t)).
Proof. exact adam_scaled. Qed.
Print Assumptions C137_adam.

(** Not so for Euclidean(ndim=1): already with scale 1, the first RiemannianAdam step with
    gradient (3, 4) from the origin differs, because Scaled does not forward component_inner
    and one second moment serves all entries. *)
Theorem C137_adam_euclidean_refuted : forall h, 0 <= beta1 h < 1 -> 0 <= beta2 h < 1 -> 0 < eps h -> a_decay h = 0 -> amsgrad h = false -> a_lr h <> 0 ->
  val (fst (adam_update h plain_at)) O = - a_lr h * (3 / (3 + eps h)) /\
  val (fst (adam_update h (on_scaled 1 sum_inner plain_at))) O = - a_lr h * (3 / (5 + eps h)) /\
  val (fst (adam_update h plain_at)) O <> val (fst (adam_update h (on_scaled 1 sum_inner plain_at))) O.
Proof. exact adam_euclidean_differs. Qed.
Print Assumptions C137_adam_euclidean_refuted.

(** Parameters on a sphere and on a hyperbolic plane, and the default settings of RiemannianAdam. *)
Example C137_hypotheses : Forall (fun p : adam_param => man p <> None)
  [{| man := Some (sphere 3); val := g34; grad := Dense g34; state := None |}; {| man := Some (ball 2 (-1)); val := vzero; grad := NoGrad; state := None |}].
Proof. repeat constructor; cbn; discriminate. Qed.
Example C137_adam_hypotheses : Forall (fun p : adam_param => exists M, man p = Some M /\ forall x u, component_inner M x u = vconst (dot 3 u u))
  [{| man := Some (sphere 3); val := g34; grad := Dense g34; state := None |}; {| man := Some (sphere 3); val := vzero; grad := NoGrad; state := None |}].
Proof. repeat constructor; exists (sphere 3); split; reflexivity. Qed.
