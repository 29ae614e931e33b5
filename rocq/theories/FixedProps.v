(** Property theorems C145: critical points are fixed points of training. *)
From Coq Require Import Reals List.
From Verif Require Import RVec OptimModel OptimInstances CheckpointSpec FixedSpec FixedProofs FixedInst.
From Verif Require SphereSpec LorentzSpec.
Import ListNotations.
Local Open Scope R_scope.

(** E edits the options between steps (a scheduler), G gives the gradients of step t at
    the current values; when all of them are critical at the initial values, n steps
    run and leave every value as it was. *)
Theorem C145_sgd : forall E G, (forall t h, plain_sgd h -> plain_sgd (E t h)) -> forall n t o, Forall (fun g => plain_sgd (hyp g)) o ->
  Forall (fun p => resting (manifold_of p) (val p)) (concat (map params o)) ->
  (forall t, critical_gradients (G t (map val (concat (map params o)))) (concat (map params o))) ->
  exists o', train_sgd E G t n o = (o', Ok) /\ map val (concat (map params o')) = map val (concat (map params o)).
Proof. exact sgd_fixed. Qed.
Print Assumptions C145_sgd.
(** A scheduler that leaves amsgrad alone: switching it on later raises a KeyError. *)
Theorem C145_adam : forall E G, (forall t h, plain_adam h -> plain_adam (E t h) /\ amsgrad (E t h) = amsgrad h) -> forall n t o, Forall (fun g => plain_adam (a_hyp g)) o ->
  Forall (fun p => resting (manifold_of p) (val p) /\ state p = None) (concat (map a_params o)) ->
  (forall t, critical_gradients (G t (map val (concat (map a_params o)))) (concat (map a_params o))) ->
  exists o', train_adam E G t n o = (o', Ok) /\ map val (concat (map a_params o')) = map val (concat (map a_params o)).
Proof. exact adam_fixed. Qed.
Print Assumptions C145_adam.
(** The points of the sphere, of a flat parameter, and of the ball within its radius *)
Theorem C145_sphere : forall n x, SphereSpec.on_sphere n None x -> resting (sphere n) x.
Proof. exact sphere_rests. Qed.
Print Assumptions C145_sphere.
Theorem C145_euclidean : forall x, resting euclidean x.
Proof. exact euclidean_rests. Qed.
Print Assumptions C145_euclidean.
Theorem C145_ball : forall n k x, projx (ball n k) x = x -> resting (ball n k) x.
Proof. exact ball_rests. Qed.
Print Assumptions C145_ball.
(** With momentum the first step at a critical point of the sphere goes to the antipode. *)
Theorem C145_momentum_refuted : critical_gradients (fun _ => Dense north) [at_north] /\ resting (sphere 2) north /\ weight_decay h_jump = 0 /\ stabilize h_jump = None /\
  exists o', train_sgd (fun _ h => h) (fun _ _ _ => Dense north) 0 1 [{| hyp := h_jump; steps := None; params := [at_north] |}] = (o', Ok) /\
  exists y, map val (concat (map params o')) = [y] /\ y O = -1.
Proof. exact (conj (proj1 north_critical) (conj (proj2 north_critical) (conj eq_refl (conj eq_refl momentum_moves)))). Qed.
Print Assumptions C145_momentum_refuted.
(** On the hyperboloid every step multiplies the space coordinates of a parameter whose
    gradient is zero, whatever the learning rate: it leaves every bounded set. *)
Theorem C145_lorentz_refuted : forall d k, 0 < k -> forall h s p, plain_sgd h -> man p = Some (lorentz d k) ->
  critical_gradients (fun _ => Dense vzero) [p] /\
  (forall n t, exists o', train_sgd (fun _ h => h) (fun _ _ _ => Dense vzero) t n [{| hyp := h; steps := s; params := [p] |}] = (o', Ok) /\
     exists y, map val (concat (map params o')) = [y] /\ forall i, y (S i) = cosh (sqrt (/ 10 ^ 8) / sqrt k) ^ n * val p (S i)) /\
  forall i, val p (S i) <> 0 -> forall B, exists n, forall t,
    exists o', train_sgd (fun _ h => h) (fun _ _ _ => Dense vzero) t n [{| hyp := h; steps := s; params := [p] |}] = (o', Ok) /\
    exists y, map val (concat (map params o')) = [y] /\ B < Rabs (y (S i)).
Proof. exact lorentz_drifts. Qed.
Print Assumptions C145_lorentz_refuted.

(** Cases: one group with a point of the sphere and a flat parameter; a point of the
    hyperboloid. *)
Example C145_case : plain_sgd h_plain /\ plain_adam a_plain /\
  Forall (fun p => resting (manifold_of p) (val p)) [rest_sphere; rest_flat] /\
  critical_gradients (fun i => match i with O => Dense north | _ => NoGrad end) [rest_sphere; rest_flat].
Proof. exact case_sgd. Qed.
Example C145_ball_case : projx (ball 2 (-1)) vzero = vzero.
Proof. exact case_ball. Qed.
Example C145_lorentz_case : LorentzSpec.on_hyperboloid 1 1 (fun i => match i with O => sqrt 2 | _ => 1 end).
Proof. exact case_lorentz. Qed.
