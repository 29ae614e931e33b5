(** C136: optimizing a point of a product is optimizing the points of its components. *)
From Coq Require Import Reals List Arith.
From Verif Require Import RVec OptimModel OptimSpec OptimDecaySpec OptimInstances ProductOptimModel ProductOptimSpec ProductOptimProofs ProductOptimInst.
Import ListNotations.
Local Open Scope R_scope.

(** RiemannianSGD with any schedule of hyper-parameters (momentum, dampening, Nesterov, weight
    decay, stabilisation): after every number of steps the row of the product parameter
    consists of the rows of the separate parameters. *)
Theorem C136_sgd : forall cs, cs <> [] -> Forall (fun c => rows_of (fst c) (snd c)) cs ->
  forall hs G G' P ps, same_gradients cs G G' -> on_components cs P ps -> forall t,
  exists Q, params (sgd_training hs G' [P] t) = [Q] /\ joined cs (val Q) (map val (params (sgd_training hs G ps t))).
Proof. exact sgd_training_product. Qed.
Print Assumptions C136_sgd.

(** RiemannianAdam: every component keeps its own second moments. *)
Theorem C136_adam : forall cs, cs <> [] -> Forall (fun c => rows_of (fst c) (snd c)) cs ->
  forall am hs G G' P ps, (forall t, amsgrad (hs t) = am /\ a_stabilize (hs t) <> Some O) ->
  same_gradients cs G G' -> on_components cs P ps -> forall t,
  exists Q, a_params (adam_training hs G' [P] t) = [Q] /\ joined cs (val Q) (map val (a_params (adam_training hs G ps t))).
Proof. exact adam_training_product. Qed.
Print Assumptions C136_adam.

(** Such components are Euclidean space, spheres, balls, hyperboloids, and products. *)
Theorem C136_components : forall n d k, rows_of n euclidean /\ rows_of n (sphere n) /\ rows_of n (ball n k) /\ rows_of (S d) (lorentz d k).
Proof. exact (fun n d k => conj (euclidean_rows n) (conj (sphere_rows n) (conj (ball_rows n k) (lorentz_rows d k)))). Qed.
Print Assumptions C136_components.
Theorem C136_nested : forall cs, Forall (fun c => rows_of (fst c) (snd c)) cs -> rows_of (total cs) (product cs).
Proof. exact product_rows. Qed.
Print Assumptions C136_nested.

(** A circle and the hyperbolic plane, both oracles computing twice the point. *)
Example C136_hypotheses : pair_cs <> [] /\ Forall (fun c => rows_of (fst c) (snd c)) pair_cs /\ same_gradients pair_cs twice twice /\
  on_components pair_cs (@packed_at vec) separate.
Proof. exact pair_case. Qed.
