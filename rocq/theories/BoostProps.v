(** C139: the isometries of the hyperboloid. *)
From Coq Require Import Reals List.
From Verif Require Import RVec OptimModel OptimDecaySpec OptimInstances LorentzSpec RotationSpec BoostSpec BoostProofs.
From Verif Require LorentzModel.
Import ListNotations.
Local Open Scope R_scope.

(** Boosts, rotations of space, and what is composed of them are isometries. *)
Theorem C139_isometries : forall d k, 0 < k ->
  (forall a, isometry (S d) k (boost a)) /\
  (forall T, rotation d T -> isometry d k (spatial T)) /\
  (forall S T, isometry d k S -> isometry d k T -> isometry d k (fun x => S (T x))).
Proof. exact (fun d k K => conj (fun a => boost_iso d k a K) (conj (spatial_iso d k) (compose_iso d k))). Qed.
Print Assumptions C139_isometries.

(** The functions of lorentz/math.py commute with every isometry, without conditions on the
    points: dist is invariant, the others are carried along. *)
Theorem C139_functions : forall d k T, isometry d k T -> forall x y u v t,
  LorentzModel.dist d k (T x) (T y) = LorentzModel.dist d k x y /\
  LorentzModel.inner d (T u) (T v) = LorentzModel.inner d u v /\
  LorentzModel.norm d (T u) = LorentzModel.norm d u /\
  LorentzModel.expmap d k (T x) (T u) = T (LorentzModel.expmap d k x u) /\
  LorentzModel.logmap d k (T x) (T y) = T (LorentzModel.logmap d k x y) /\
  LorentzModel.parallel_transport d k (T x) (T y) (T u) = T (LorentzModel.parallel_transport d k x y u) /\
  LorentzModel.project_u d k (T x) (T u) = T (LorentzModel.project_u d k x u) /\
  LorentzModel.geodesic_unit k t (T x) (T u) = T (LorentzModel.geodesic_unit k t x u).
Proof.
  exact (fun d k T H x y u v t => conj (i_dist d k T H x y) (conj (i_inner d k T H u v) (conj (i_norm d k T H u) (conj (i_expmap d k T H x u)
    (conj (i_logmap d k T H x y) (conj (i_parallel d k T H x y u) (conj (i_project_u d k T H x u) (i_geodesic d k T H t x u)))))))).
Qed.
Print Assumptions C139_functions.

(** Gradients: [carried T g] pairs with T v as g does with v, so it is the Euclidean gradient of
    the moved loss, and its Riemannian gradient is the moved Riemannian gradient. *)
Theorem C139_gradient : forall d k T, isometry d k T -> forall g,
  (forall v, pairing d (carried T g) (T v) = pairing d g v) /\
  (forall x, egrad2rgrad (lorentz d k) (T x) (carried T g) = T (egrad2rgrad (lorentz d k) x g)).
Proof. exact (fun d k T H g => conj (i_carried d k T H g) (fun x => i_gradient d k T H x g)). Qed.
Print Assumptions C139_gradient.

(** Training with RiemannianSGD (no momentum, no weight decay, any schedule of learning rates
    and stabilisation) on the moved loss visits the moved points, as long as no step is
    shorter than 1e-4. *)
Theorem C139_training : forall d k T hs G G' (p : sgd_param), 0 < k -> isometry d k T -> (forall t, momentum (hs t) <= 0 /\ weight_decay (hs t) = 0) ->
  man p = Some (lorentz d k) -> on_hyperboloid d k (val p) ->
  (forall t x, on_hyperboloid d k x -> G' t [T x] O = carried_gradient T (G t [x] O)) -> forall t,
  (forall s, (s < t)%nat -> Forall (fun x => long_step d k (hs s) x (G s [x] O)) (map val (params (sgd_training hs G [p] s)))) ->
  map val (params (sgd_training hs G' [seen T p] t)) = map T (map val (params (sgd_training hs G [p] t))).
Proof. exact train_carried. Qed.
Print Assumptions C139_training.

(** Shorter steps are not carried along: the step of length 0 at the origin, and at its image
    under a boost. *)
Theorem C139_short_step_refuted : forall d k a, 0 < k -> a <> 0 ->
  exists i, (i <= S d)%nat /\ retr (lorentz (S d) k) (boost a (LorentzModel.origin k)) vzero i <> boost a (retr (lorentz (S d) k) (LorentzModel.origin k) vzero) i.
Proof. exact boost_short. Qed.
Print Assumptions C139_short_step_refuted.

Example C139_hypotheses : isometry 2 1 (boost 1) /\ on_hyperboloid 2 1 (val at_origin) /\
  (forall t x, on_hyperboloid 2 1 x -> (fun (_ : nat) (_ : list vec) (_ : nat) => Dense (carried (boost 1) g010)) t [boost 1 x] O = carried_gradient (boost 1) (Dense g010)) /\
  Forall (fun x => long_step 2 1 h10 x (Dense g010)) (map val (params (sgd_training (fun _ => h10) (fun _ _ _ => Dense g010) [at_origin] 0))).
Proof. exact boost_case. Qed.
