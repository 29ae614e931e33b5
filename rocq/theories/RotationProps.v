(** C138: rotating the coordinates does not matter. *)
From Coq Require Import Reals List.
From Verif Require Import RVec OptimModel OptimDecaySpec OptimInstances RotationSpec RotationProofs ProductOptimInst RotationInst.
From Verif Require SphereModel LorentzModel StereoModel.
Import ListNotations.
Local Open Scope R_scope.

(** Every function of the stereographic models, for every curvature, commutes with rotations. *)
Theorem C138_stereographic : forall n T, rotation n T -> forall e k x y u,
  StereoModel.dist n e k (T x) (T y) = StereoModel.dist n e k x y /\
  StereoModel.mobius_add n k (T x) (T y) = T (StereoModel.mobius_add n k x y) /\
  StereoModel.expmap n e k (T x) (T u) = T (StereoModel.expmap n e k x u) /\
  StereoModel.logmap n e k (T x) (T y) = T (StereoModel.logmap n e k x y) /\
  StereoModel.parallel_transport n k (T x) (T y) (T u) = T (StereoModel.parallel_transport n k x y u) /\
  (forall s, StereoModel.geodesic n e k s (T x) (T y) = T (StereoModel.geodesic n e k s x y)) /\
  (forall r, StereoModel.mobius_scalar_mul n e k r (T x) = T (StereoModel.mobius_scalar_mul n e k r x)) /\
  (forall eps, StereoModel.project n e eps k (T x) = T (StereoModel.project n e eps k x)) /\
  (forall signed scaled, StereoModel.dist2plane n e k signed scaled (T x) (T u) (T y) = StereoModel.dist2plane n e k signed scaled x u y).
Proof.
  exact (fun n T H e k x y u => conj (r_dist n T H e k x y) (conj (r_mobius_add n T H k x y) (conj (r_expmap n T H e k x u)
    (conj (r_logmap n T H e k x y) (conj (r_parallel n T H k x y u) (conj (fun s => r_geodesic n T H e k s x y)
    (conj (fun r => r_scalar n T H e k r x) (conj (fun eps => r_project n T H e eps k x) (fun a b => r_dist2plane n T H e k a b x u y))))))))).
Qed.
Print Assumptions C138_stereographic.
Theorem C138_sphere : forall n T, rotation n T -> forall eps x y u,
  SphereModel.dist n eps (T x) (T y) = SphereModel.dist n eps x y /\
  SphereModel.expmap n None eps (T x) (T u) = T (SphereModel.expmap n None eps x u) /\
  SphereModel.logmap n None eps (T x) (T y) = T (SphereModel.logmap n None eps x y) /\
  SphereModel.retr n None (T x) (T u) = T (SphereModel.retr n None x u) /\
  SphereModel.projx n None (T x) = T (SphereModel.projx n None x) /\
  SphereModel.proju n None (T x) (T u) = T (SphereModel.proju n None x u).
Proof.
  exact (fun n T H eps x y u => conj (sphere_dist n T H eps x y) (conj (sphere_expmap n T H eps x u) (conj (sphere_logmap n T H eps x y)
    (conj (sphere_retr n T H x u) (conj (sphere_projx n T H x) (sphere_proju n T H x u)))))).
Qed.
Print Assumptions C138_sphere.
Theorem C138_lorentz : forall d T, rotation d T -> forall k x y u,
  LorentzModel.dist d k (spatial T x) (spatial T y) = LorentzModel.dist d k x y /\
  LorentzModel.expmap d k (spatial T x) (spatial T u) = spatial T (LorentzModel.expmap d k x u) /\
  LorentzModel.logmap d k (spatial T x) (spatial T y) = spatial T (LorentzModel.logmap d k x y) /\
  LorentzModel.parallel_transport d k (spatial T x) (spatial T y) (spatial T u) = spatial T (LorentzModel.parallel_transport d k x y u) /\
  LorentzModel.project d k (spatial T x) = spatial T (LorentzModel.project d k x).
Proof.
  exact (fun d T H k x y u => conj (s_dist d T H k x y) (conj (s_expmap d T H k x u) (conj (s_logmap d T H k x y)
    (conj (s_parallel d T H k x y u) (s_project d T H k x))))).
Qed.
Print Assumptions C138_lorentz.

(** So do the manifolds as the optimizers see them. *)
Theorem C138_manifolds : forall n T, rotation n T -> forall k,
  equivariant T euclidean /\
  (equivariant T (sphere n) /\ invariant_length T (sphere n)) /\
  (equivariant T (ball n k) /\ invariant_length T (ball n k)) /\
  (equivariant (spatial T) (lorentz n k) /\ invariant_length (spatial T) (lorentz n k)).
Proof.
  exact (fun n T H k => conj (euclidean_equivariant n T H) (conj (conj (sphere_equivariant n T H) (sphere_length n T H))
    (conj (conj (ball_equivariant n T H k) (ball_length n T H k)) (conj (lorentz_equivariant n T H k) (lorentz_length n T H k))))).
Qed.
Print Assumptions C138_manifolds.

(** Training with RiemannianSGD on the turned loss from the turned values visits the turned
    points, for all schedules of hyper-parameters. *)
Theorem C138_sgd : forall Ts G G' ps, Forall2 (fun T p => equivariant T (manifold_of p)) Ts ps -> turned_oracle Ts G G' -> forall hs t,
  map val (params (sgd_training hs G' (each_turned turned Ts ps) t)) = turned_values Ts (map val (params (sgd_training hs G ps t))).
Proof. exact sgd_values_turned. Qed.
Print Assumptions C138_sgd.
Theorem C138_adam : forall Ts G G' ps,
  Forall2 (fun T p => equivariant T (manifold_of p) /\ invariant_length T (manifold_of p) /\ single_moments p) Ts ps -> turned_oracle Ts G G' -> forall hs t,
  map val (a_params (adam_training hs G' (each_turned a_turned Ts ps) t)) = turned_values Ts (map val (a_params (adam_training hs G ps t))).
Proof. exact adam_values_turned. Qed.
Print Assumptions C138_adam.

(** RiemannianAdam on Euclidean parameters is not: the first step from the origin with gradient
    (5, 0), and with the gradient turned to (3, 4). *)
Theorem C138_adam_euclidean_refuted : forall h, 0 <= beta1 h < 1 -> 0 <= beta2 h < 1 -> 0 < eps h -> a_decay h = 0 -> amsgrad h = false -> a_lr h <> 0 ->
  val (fst (adam_update h (a_turned rot flat_at))) O = - a_lr h * (3 / (3 + eps h)) /\
  rot (val (fst (adam_update h flat_at))) O = - a_lr h * (3 / (5 + eps h)) /\
  val (fst (adam_update h (a_turned rot flat_at))) O <> rot (val (fst (adam_update h flat_at))) O.
Proof. exact adam_plane_differs. Qed.
Print Assumptions C138_adam_euclidean_refuted.

(** The rotation taking (5, 0) to (3, 4), a circle and a Poincaré disc, gradients twice the point. *)
Example C138_hypotheses : rotation 2 rot /\ Forall2 (fun T p => equivariant T (manifold_of p)) [rot; rot] (@circle_and_disc vec) /\
  Forall2 (fun T p => equivariant T (manifold_of p) /\ invariant_length T (manifold_of p) /\ single_moments p) [rot; rot] circle_and_disc /\
  turned_oracle [rot; rot] twice twice.
Proof. exact circle_case. Qed.
